(** C90: what a rule returns, its trees and its reports of errors, depends only on the rules that it refers to, directly or not
    (generator/src/typed/generator.rs, module.rs, core/src/typed/traits.rs L24-53, L136-254, core/src/typed/tracker.rs). *)
From Coq Require Import String List NArith ZArith Arith Bool Lia Permutation.
From Verif Require Import Proof_Grammar_Tree_Inline Proof_Grammar_Tree_Det Proof_Grammar_Trace_Det Proof_Det Proof_Text Model_Text Model_Message Model_Meta Model_Import Model_Position Model_Span Model_Stack Model_Tracker Model_Node Model_Pairs
  Model_Generator Model_Output Model_Inline
  Spec_Text Spec_Peg Spec_Run Spec_Yield Spec_Rust Spec_Grammar_Peg Spec_Occur Spec_Generator Spec_Inline Spec_Grammar_Tree Spec_Grammar_Trace Spec_Local
  Proof_Local Proof_Local_Tree Proof_Laws_Tree Example_Generator Example_Fine Example_Inline Thm_Generated Thm_Local Thm_Laws_Tree Thm_Grammar_Tree Thm_Grammar_Trace Thm_Whole_Tree.
Import ListNotations.
Open Scope list_scope.

(** Grammars that agree on some names, and the rules of which with these names refer to such names only, give the same trees to what refers to such names only, *)
Theorem C90_trees : forall unicode property P g g', agree P g g' -> closed_under P g ->
  (forall r, In r (g_rules g) -> is_trivia_rule r -> pr_args r = []) ->
  forall e pre post K pre' post' K' ps, refers P [] e -> gtree unicode property (open_own g) g [] e pre post K pre' post' K' ps ->
  exists qs, gtree unicode property (open_own g') g' [] e pre post K pre' post' K' qs /\ matched_all (kept g g') ps qs.
Proof.
  intros unicode property P g g' A C T e pre post K pre' post' K' ps R H.
  apply (proj1 (Proof_Local_Tree.same_trees unicode property P g g' A C (fun r I _ => T r I)) _ _ _ _ _ _ _ _ _ _ H); [right; auto|constructor].
Qed.
Print Assumptions C90_trees.
(** and try the same rules. *)
Theorem C90_tries : forall unicode property P g g', agree P g g' -> closed_under P g ->
  (forall r, In r (g_rules g) -> is_trivia_rule r -> pr_args r = []) ->
  forall r pre post K res tr, In r (g_rules g) -> P (pr_name r) -> pr_args r = [] -> gtry_rule unicode property (open_own g) g r pre post K res tr ->
  exists tr', gtry_rule unicode property (open_own g') g' r pre post K res tr' /\ Forall2 (event_alike (kept g g')) tr tr'.
Proof.
  intros unicode property P g g' A C T r pre post K res gtr I Pr Na (tr & H & ->). assert (I' : In r (g_rules g')) by (apply (proj1 A r Pr), I).
  assert (Ke : kept g g' (g, r) (g', r)) by (split; [right; cbn; auto 10|reflexivity]).
  destruct (proj1 (same_tries unicode property P g g' A C (fun r I _ => T r I)) _ _ _ _ _ _ _ _ _ _ H [((g', r), blen pre)] g' []) as (tr' & H' & F).
  - constructor; [split; [exact Ke|reflexivity]|constructor].
  - right. split; [reflexivity|]. split; [reflexivity|]. cbn [map]. rewrite <- Na. apply C; assumption.
  - constructor.
  - eexists. split; [exists tr'; split; [exact H'|reflexivity]|]. apply Forall2_app; [exact F|]. rewrite (alike_tried g g' _ _ F). destruct (tried_grammar_rule tr); [constructor|].
    constructor; [constructor; [constructor|exact Ke]|constructor].
Qed.
Print Assumptions C90_tries.

(** Attempts that are alike are reported alike. *)
Lemma alike_at : forall Q tr tr', Forall2 (event_alike Q) tr tr' -> furthest_try tr' = furthest_try tr.
Proof. intros Q tr tr' H. unfold furthest_try. induction H as [|x y l l' H _ IH]; [reflexivity|]. cbn [map fold_right]. rewrite IH. destruct H; reflexivity. Qed.
Lemma alike_in : forall Q tr tr', Forall2 (event_alike Q) tr tr' -> forall x, In x tr -> exists y, In y tr' /\ event_alike Q x y.
Proof. intros Q tr tr' H. induction H as [|a b l l' H _ IH]; intros x I; [destruct I|]. destruct I as [<-|I]; [exists b; split; [left; reflexivity|exact H]|]. destruct (IH x I) as (y & Iy & E). exists y. split; [right; exact Iy|exact E]. Qed.
Lemma alike_group : forall Q chain chain' p, Forall2 (frame_alike Q) chain chain' ->
  match begun_elsewhere chain p, begun_elsewhere chain' p with Some l, Some l' => Q l l' | None, None => True | _, _ => False end.
Proof.
  intros Q chain chain' p H. unfold begun_elsewhere. induction H as [|(l, a) (l', a') c c' (H & E) _ IH]; [exact Logic.I|]. cbn in H, E. subst. cbn [find snd]. destruct (negb (a =? p)); [exact H|exact IH].
Qed.
Lemma heading : forall (R R' : rule -> label -> Prop) (Q : label -> label -> Prop) (S : rule -> rule -> Prop), (forall x x' l l', R x l -> R' x' l' -> Q l l' -> S x x') ->
  forall chain chain' p u u', Forall2 (frame_alike Q) chain chain' -> same_group R u (begun_elsewhere chain p) -> same_group R' u' (begun_elsewhere chain' p) -> same_heading S u u'.
Proof.
  intros R R' Q S RS chain chain' p u u' F G G'. assert (A := alike_group Q _ _ p F). inversion G; inversion G'; subst;
  repeat match goal with H : _ = begun_elsewhere _ _ |- _ => rewrite <- H in A; clear H end; try destruct A; try exact Logic.I. cbn. eapply RS; eassumption.
Qed.
Section Reports.
Variables (R R' : rule -> label -> Prop) (Q : label -> label -> Prop) (S : rule -> rule -> Prop).
Hypothesis RS : forall x x' l l', R x l -> R' x' l' -> Q l l' -> S x x'.
Lemma tells_alike : forall tr tr' rep rep', Forall2 (event_alike Q) tr tr' -> tells R tr rep -> tells R' tr' rep' -> report_says S rep rep'.
Proof.
  intros tr tr' rep rep' F T T'. assert (E := alike_at _ _ _ F). split.
  - rewrite (tells_at _ _ _ T), (tells_at _ _ _ T'). exact E.
  - intros u x L. destruct (tells_expected _ _ _ T u x L) as (chain & l & I & Rx & G). destruct (alike_in _ _ _ F _ I) as (y & Iy & Ey). inversion Ey; subst. rewrite <- E in Iy.
    destruct (tells_all_expected _ _ _ T' _ _ Iy) as (u' & x' & L' & Rx' & G'). rewrite E in G'. exists u', x'. split; [exact L'|]. split; [eapply RS; eassumption|eapply heading; eassumption].
  - intros u x L. destruct (tells_unexpected _ _ _ T u x L) as (chain & l & I & Rx & G). destruct (alike_in _ _ _ F _ I) as (y & Iy & Ey). inversion Ey; subst. rewrite <- E in Iy.
    destruct (tells_all_unexpected _ _ _ T' _ _ Iy) as (u' & x' & L' & Rx' & G'). rewrite E in G'. exists u', x'. split; [exact L'|]. split; [eapply RS; eassumption|eapply heading; eassumption].
  - intros u x L. destruct (tells_misuse _ _ _ T u x L) as (chain & I & G). destruct (alike_in _ _ _ F _ I) as (y & Iy & Ey). inversion Ey; subst. rewrite <- E in Iy.
    destruct (tells_all_misuse _ _ _ T' _ _ Iy) as (u' & L' & G'). rewrite E in G'. exists u'. split; [exact L'|eapply heading; eassumption].
Qed.
Hypothesis End : S EOI EOI.
Lemma rest_alike : forall tr tr' p rep rep', Forall2 (event_alike Q) tr tr' -> tells_rest R tr p rep -> tells_rest R' tr' p rep' -> report_says S rep rep'.
Proof.
  intros tr tr' p rep rep' F T T'. assert (E := alike_at _ _ _ F). destruct T as [B A Sm Af], T' as [B' A' Sm' Af']. rewrite E in *.
  destruct (lt_eq_lt_dec p (furthest_try tr)) as [[L|L]|L].
  - eapply tells_alike; [exact F|apply B, L|apply B', L].
  - destruct (Sm (eq_sym L)) as (q & T & X & U & M). destruct (Sm' (eq_sym L)) as (q' & T' & X' & U' & M'). assert (H := tells_alike _ _ _ _ F T T'). destruct H as [_ Hx Hu Hm]. split.
    + rewrite A, A' by lia. reflexivity.
    + intros u x I. apply X in I. destruct I as [I|(-> & ->)]; [|exists None, EOI; split; [apply X'; right; auto|]; split; [exact End|exact Logic.I]].
      destruct (Hx u x I) as (u' & x' & I' & K). exists u', x'. split; [apply X'; left; exact I'|exact K].
    + intros u x I. apply U in I. destruct (Hu u x I) as (u' & x' & I' & K). exists u', x'. split; [apply U'; exact I'|exact K].
    + intros u x I. apply M in I. destruct (Hm u x I) as (u' & I' & K). exists u'. split; [apply M'; exact I'|exact K].
  - destruct (Af L) as (X & U & M). destruct (Af' L) as (X' & _). split.
    + rewrite A, A' by lia. reflexivity.
    + intros u x I. apply X in I. destruct I as (-> & ->). exists None, EOI. split; [apply X'; auto|]. split; [exact End|exact Logic.I].
    + intros u x I. destruct (U u x I).
    + intros u x I. destruct (M u x I).
Qed.
End Reports.
Lemma event_back : forall Q tr tr', Forall2 (event_alike Q) tr tr' -> Forall2 (event_alike (fun l' l => Q l l')) tr' tr.
Proof.
  assert (Fr : forall Q c c', Forall2 (frame_alike Q) c c' -> Forall2 (frame_alike (fun l' l => Q l l')) c' c).
  { intros Q c c' H. induction H as [|a b l l' (H & E) _ IH]; constructor; [|exact IH]. split; [exact H|symmetry; exact E]. }
  intros Q tr tr' H. induction H as [|x y l l' H _ IH]; constructor; [|exact IH]. destruct H; constructor; auto.
Qed.

(** Numbers of the parsers of [g] and of [g'] that stand for the same rule. *)
Definition kept_rule (g g' : gmodule) (tm tm' : text) (id id' : list text -> text -> rule) (x x' : rule) : Prop :=
  exists l l', numbered_as (located tm g) id x l /\ numbered_as (located tm' g') id' x' l' /\ kept g g' l l'.

(** What the parsers of a rule in both programs return for a text is the same. *)
Theorem C90_parse : forall unicode P g g' tm tm' id id' env env',
  generated unicode g tm id env -> generated unicode g' tm' id' env' -> agree P g g' -> closed_under P g ->
  forall property r, In r (g_rules g) -> P (pr_name r) -> ~ is_trivia_rule r -> pr_args r = [] ->
  forall addr s k k' o o',
  text_try_parse addr s env property k (Rule (id [tm] (pr_name r)) []) = Ret o ->
  text_try_parse addr s env' property k' (Rule (id' [tm'] (pr_name r)) []) = Ret o' ->
  returns_alike (kept_rule g g' tm tm' id id') env env' o o'.
Proof.
  intros unicode P g g' tm tm' id id' env env' Gn Gn' Ag Cl property r I Pr Nt Na addr s k k' o o' E E'.
  assert (I' : In r (g_rules g')) by (apply (proj1 Ag r Pr), I).
  destruct Gn as (config & fuel & items & G & -> & C & T & Pt & F & Ty & D & Rd). destruct Gn' as (config' & fuel' & items' & G' & -> & C' & T' & Pt' & F' & Ty' & _ & Rd').
  assert (Plain : forall r, In r (g_rules g) -> is_trivia_rule r -> pr_args r = []) by (inversion F; subst; assumption).
  assert (W := typed_written config fuel unicode g items G C T Pt F Ty D id env Rd property _ g r (Loc_top _ _) I Nt Na addr s).
  assert (W' := typed_written config' fuel' unicode g' items' G' C' T' Pt' F' Ty' D id' env' Rd' property _ g' r (Loc_top _ _) I' Nt Na addr s).
  assert (Rf : refers P [] (n_expr (pr_node r))) by (rewrite <- Na; apply Cl; assumption).
  assert (One : forall res res', gpeg unicode property g' [] (n_expr (pr_node r)) [] s [] res -> gpeg unicode property g' [] (n_expr (pr_node r)) [] s [] res' -> res = res')
    by (intros res res' A B; first [exact (proj1 (gpeg_unique unicode property D) _ _ _ _ _ _ _ A C' (GE_nil _) _ B)|symmetry; exact (proj1 (gpeg_unique unicode property D) _ _ _ _ _ _ _ A C' (GE_nil _) _ B)]).
  assert (Mean := fun res => proj1 (C81_meaning unicode property P g g' Ag Cl Plain _ [] s [] res Rf)).
  assert (Tg := fun res tr H => proj2 (C86_exists unicode property (open_own g) (open_own_dec g) g r [] s [] res) (ex_intro _ tr H)).
  assert (Tg' := fun res tr H => proj2 (C86_exists unicode property (open_own g') (open_own_dec g') g' r [] s [] res) (ex_intro _ tr H)).
  set (S := or_end (kept_rule g g' (types_mod (rules_mod config)) (types_mod (rules_mod config')) id id')).
  assert (RS : forall x x' l l', numbered_as (located (types_mod (rules_mod config)) g) id x l -> numbered_as (located (types_mod (rules_mod config')) g') id' x' l' -> kept g g' l l' -> S x x')
    by (intros x x' l l' A B K; left; exists l, l'; auto).
  assert (En : S EOI EOI) by (right; auto).
  destruct o as [v|t], o' as [v'|t'].
  - destruct (written_tree _ _ _ _ _ _ _ _ _ _ _ W _ _ E) as (Ks & ps & Tr & M). destruct (written_tree _ _ _ _ _ _ _ _ _ _ _ W' _ _ E') as (Ks' & ps' & Tr' & M').
    destruct (C90_trees unicode property P g g' Ag Cl Plain _ _ _ _ _ _ _ _ Rf Tr) as (qs & Tq & Mq).
    destruct (C85_unique unicode property (open_own g') g' _ D C' _ _ _ _ _ _ _ _ _ _ _ Tq Tr') as (_ & _ & _ & ->).
    refine (matched_chain _ _ _ _ _ _ _ _ _ _ _ M _ M'). destruct (pr_silent r); [constructor|]. constructor; [|constructor]. constructor; [|exact Mq].
    split; [right; cbn; auto 10|reflexivity].
  - destruct (written_tree _ _ _ _ _ _ _ _ _ _ _ W _ _ E) as (Ks & ps & Tr & _). apply (proj1 (gtree_gpeg unicode property (open_own g))), Mean in Tr.
    destruct (written_report _ _ _ _ _ _ _ _ _ _ _ W' _ _ E') as [(tr & H & _)|(x & rest & Ks' & tr & _ & N & H & _)]; apply Tg' in H; assert (Q := One _ _ Tr H); [discriminate Q|]. injection Q as _ Q _. destruct N. symmetry. exact Q.
  - destruct (written_tree _ _ _ _ _ _ _ _ _ _ _ W' _ _ E') as (Ks & ps & Tr & _). apply (proj1 (gtree_gpeg unicode property (open_own g'))) in Tr.
    destruct (written_report _ _ _ _ _ _ _ _ _ _ _ W _ _ E) as [(tr & H & _)|(x & rest & Ks' & tr & _ & N & H & _)]; apply Tg, Mean in H; assert (Q := One _ _ Tr H); [discriminate Q|]. injection Q as _ Q _. destruct N. symmetry. exact Q.
  - assert (Both : forall res tr, gtry_rule unicode property (open_own g) g r [] s [] res tr -> forall res' tr', gtry_rule unicode property (open_own g') g' r [] s [] res' tr' ->
      res' = res /\ Forall2 (event_alike (kept g g')) tr tr').
    { intros res tr H res' tr' H'. destruct (C90_tries unicode property P g g' Ag Cl Plain r _ _ _ _ _ I Pr Na H) as (q & Hq & Fq).
      destruct (C86_unique unicode property (open_own g') g' r D C' _ _ _ _ _ _ _ Hq H') as (-> & ->). split; [reflexivity|exact Fq]. }
    destruct (written_report _ _ _ _ _ _ _ _ _ _ _ W _ _ E) as [(tr & H & Te)|(x & rest & Ks & tr & Es & N & H & Te)];
    destruct (written_report _ _ _ _ _ _ _ _ _ _ _ W' _ _ E') as [(tr' & H' & Te')|(x' & rest' & Ks' & tr' & Es' & N' & H' & Te')];
    destruct (Both _ _ H _ _ H') as (Q & Fq); try discriminate Q.
    + split; [exact (tells_alike _ _ _ _ RS _ _ _ _ Fq Te Te')|]. refine (tells_alike _ _ (fun l' l => kept g g' l l') (fun x' x => S x x') _ _ _ _ _ (event_back _ _ _ Fq) Te' Te). intros; eapply RS; eassumption.
    + injection Q as -> _ _. split; [exact (rest_alike _ _ _ _ RS En _ _ _ _ _ Fq Te Te')|].
      refine (rest_alike _ _ (fun l' l => kept g g' l l') (fun x' x => S x x') _ _ _ _ _ _ _ (event_back _ _ _ Fq) Te' Te); [intros; eapply RS; eassumption|exact En].
Qed.
Print Assumptions C90_parse.

(** If one returns, so does the other. *)
Theorem C90_returns : forall unicode P g g' tm tm' id id' env env',
  generated unicode g tm id env -> generated unicode g' tm' id' env' -> agree P g g' -> closed_under P g ->
  forall property r, In r (g_rules g) -> P (pr_name r) -> ~ is_trivia_rule r -> pr_args r = [] ->
  forall addr s,
  (exists k o, text_try_parse addr s env property k (Rule (id [tm] (pr_name r)) []) = Ret o) <->
  (exists k o, text_try_parse addr s env' property k (Rule (id' [tm'] (pr_name r)) []) = Ret o).
Proof.
  assert (Half : forall unicode P g g' tm tm' id id' env env',
    generated unicode g tm id env -> generated unicode g' tm' id' env' -> agree P g g' -> closed_under P g ->
    forall property r, In r (g_rules g) -> P (pr_name r) -> ~ is_trivia_rule r -> pr_args r = [] ->
    forall addr s, (exists k o, text_try_parse addr s env property k (Rule (id [tm] (pr_name r)) []) = Ret o) ->
    exists k o, text_try_parse addr s env' property k (Rule (id' [tm'] (pr_name r)) []) = Ret o).
  { intros unicode P g g' tm tm' id id' env env' Gn Gn' Ag Cl property r I Pr Nt Na addr s (k & o & E).
    assert (I' : In r (g_rules g')) by (apply (proj1 Ag r Pr), I).
    destruct Gn as (config & fuel & items & G & -> & C & T & Pt & F & Ty & D & Rd). destruct Gn' as (config' & fuel' & items' & G' & -> & C' & T' & Pt' & F' & Ty' & _ & Rd').
    assert (Plain : forall r, In r (g_rules g) -> is_trivia_rule r -> pr_args r = []) by (inversion F; subst; assumption).
    assert (W := typed_written config fuel unicode g items G C T Pt F Ty D id env Rd property _ g r (Loc_top _ _) I Nt Na addr s).
    assert (W' := typed_written config' fuel' unicode g' items' G' C' T' Pt' F' Ty' D id' env' Rd' property _ g' r (Loc_top _ _) I' Nt Na addr s).
    assert (Rf : refers P [] (n_expr (pr_node r))) by (rewrite <- Na; apply Cl; assumption).
    assert (Mean := fun res => proj1 (C81_meaning unicode property P g g' Ag Cl Plain _ [] s [] res Rf)).
    assert (Tg := fun res tr H => proj2 (C86_exists unicode property (open_own g) (open_own_dec g) g r [] s [] res) (ex_intro _ tr H)).
    assert (No : forall res, gpeg unicode property g' [] (n_expr (pr_node r)) [] s [] res -> (forall Ks, res <> Ok s [] Ks) -> exists k o, text_try_parse addr s env' property k (Rule (id' [types_mod (rules_mod config')] (pr_name r)) []) = Ret o).
    { intros res H Q. destruct (written_rejected _ _ _ _ _ _ _ _ _ _ _ W' _ H Q) as (k0 & K). destruct (K k0 (le_n _)) as (t & Et). eauto. }
    destruct o as [v|t].
    - destruct (written_tree _ _ _ _ _ _ _ _ _ _ _ W _ _ E) as (Ks & ps & Tr & _). apply (proj1 (gtree_gpeg unicode property (open_own g))), Mean in Tr.
      destruct (written_accepted _ _ _ _ _ _ _ _ _ _ _ W' _ Tr) as (k0 & K). destruct (K k0 (le_n _)) as (v' & Ev). eauto.
    - destruct (written_report _ _ _ _ _ _ _ _ _ _ _ W _ _ E) as [(tr & H & _)|(x & rest & Ks' & tr & _ & N & H & _)]; apply Tg, Mean in H; apply (No _ H); intros Ks Q; [discriminate Q|]. injection Q as _ Q _. destruct (N Q). }
  intros unicode P g g' tm tm' id id' env env' Gn Gn' Ag Cl property r I Pr Nt Na addr s.
  assert (I' : In r (g_rules g')) by (apply (proj1 Ag r Pr), I).
  assert (Ag' : agree P g' g) by (destruct Ag as (A & B & D); split; [|split]; intros; symmetry; eauto).
  assert (Cl' : closed_under P g') by (intros q Iq Pq; apply Cl; [apply (proj1 Ag q Pq), Iq|exact Pq]).
  split; [eapply Half; eassumption|]. intro H. exact (Half unicode P g' g tm' tm id' id env' env Gn' Gn Ag' Cl' property r I' Pr Nt Na addr s H).
Qed.
Print Assumptions C90_returns.

(** The order of the rules and of the imports does not matter. *)
Theorem C90_order : forall unicode g g' tm tm' id id' env env',
  generated unicode g tm id env -> generated unicode g' tm' id' env' ->
  Permutation (g_rules g) (g_rules g') -> Permutation (g_imports g) (g_imports g') ->
  (forall name r, last_rule g name r <-> last_rule g' name r) ->
  forall property r, In r (g_rules g) -> ~ is_trivia_rule r -> pr_args r = [] ->
  forall addr s k k' o o',
  text_try_parse addr s env property k (Rule (id [tm] (pr_name r)) []) = Ret o ->
  text_try_parse addr s env' property k' (Rule (id' [tm'] (pr_name r)) []) = Ret o' ->
  returns_alike (kept_rule g g' tm tm' id id') env env' o o'.
Proof.
  intros unicode g g' tm tm' id id' env env' G G' Pr Pi L property r I Nt Na. destruct (order_agree g g' Pr Pi L) as (A & C).
  exact (C90_parse unicode everything g g' tm tm' id id' env env' G G' A C property r I Logic.I Nt Na).
Qed.
Print Assumptions C90_order.
(** Rules can be added that the grammar does not mention: they appear in no tree and no report of the others. *)
Theorem C90_added : forall unicode g deps doc more tm tm' id id' env env',
  let g' := mkModule deps (g_rules g ++ more) doc (g_imports g) in
  generated unicode g tm id env -> generated unicode g' tm' id' env' ->
  (forall q, In q more -> ~ is_trivia_rule q) ->
  (forall q r path args, In q more -> In r (g_rules g) -> ~ part (PPath (pr_name q :: path) args) (n_expr (pr_node r))) ->
  forall property r, In r (g_rules g) -> ~ is_trivia_rule r -> pr_args r = [] ->
  forall addr s k k' o o',
  text_try_parse addr s env property k (Rule (id [tm] (pr_name r)) []) = Ret o ->
  text_try_parse addr s env' property k' (Rule (id' [tm'] (pr_name r)) []) = Ret o' ->
  returns_alike (kept_rule g g' tm tm' id id') env env' o o'.
Proof.
  intros unicode g deps doc more tm tm' id id' env env' g' G G' Nm M property r I Nt Na.
  destruct (added_agree unicode g deps doc more tm' id' env' G' Nm M) as (A & C & O).
  exact (C90_parse unicode (others more) g g' tm tm' id id' env env' G G' A C property r I (O r I) Nt Na).
Qed.
Print Assumptions C90_added.

(** With and without the rule [e], and in the reverse order, the rule [r] of the grammar of C81 gives ["a 1"] the tree [r(0, 3, [d(2, 3)])], and to ["a x"] the report that
    [d] was expected in [r] at 2; the numbers of the rules differ. *)
Definition reported (g : gmodule) (s : string) : option (nat * list (option rule * tracked)) :=
  match text_try_parse 0 (lit s) (env_of g) (fun _ _ => false) 60 (r_parser g) with Ret (inr t) => Some (finish t) | _ => None end.
Example C90_ex :
  generated sample_unicode small (lit "rules") (id_of small) (env_of small) /\ generated sample_unicode larger (lit "rules") (id_of larger) (env_of larger) /\
  generated sample_unicode reversed (lit "rules") (id_of reversed) (env_of reversed) /\
  (exists P, agree P small larger /\ closed_under P small /\ P (lit "r") /\ ~ P (lit "e")) /\ (agree everything small reversed /\ closed_under everything small) /\
  (exists r, In r (g_rules small) /\ pr_name r = lit "r" /\ ~ is_trivia_rule r /\ pr_args r = []) /\
  (forall g, In g [small; larger; reversed] ->
     shown g "a 1" = Some [mkPair (named g "r") 0 3 [mkPair (named g "d") 2 3 []]] /\
     reported g "a x" = Some (2, [(Some (named g "r"), ([named g "d"], [], []))])) /\
  named reversed "d" <> named small "d".
Proof.
  destruct C81_ex as (G & G' & G'' & M & L & Pm & _). split; [exact G|]. split; [exact G'|]. split; [exact G''|]. split.
  { destruct (added_agree sample_unicode small _ _ _ _ _ _ G' ltac:(intros q [<-|[]] [Q|Q]; discriminate Q) M) as (A & C & O). exists (others [rl "e" [] (sq (nm "r") TriviaOptional (nm "d"))]).
    split; [exact A|]. split; [exact C|]. split; [intros q [<-|[]]; discriminate|]. intro Q. apply (Q _ (or_introl eq_refl)). reflexivity. }
  split; [apply order_agree; [exact Pm|apply Permutation_refl|exact L]|]. split.
  { eexists. split; [right; left; reflexivity|]. split; [reflexivity|]. split; [intros [E|E]; discriminate E|reflexivity]. }
  split; [|vm_compute; discriminate].
  intros g [<-|[<-|[<-|[]]]]; (split; vm_compute; reflexivity).
Qed.
