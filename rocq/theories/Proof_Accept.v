(** Which grammars the generator accepts. *)
From Coq Require Import String List NArith ZArith Arith Bool Lia.
From Verif Require Import Model_Text Model_Message Model_Meta Model_Import Model_Generator
  Spec_Text Spec_Grammar_Peg Spec_Occur Spec_Generator Proof_Text Proof_Emit Proof_Box Proof_Process Proof_Names
  Proof_Contents Proof_Place Proof_Resolve Proof_Raw.
Import ListNotations.
Open Scope list_scope.

Section Accept.
Variable unicode : list text.
Notation global := (make_global unicode).
Hypothesis Props : distinct_properties unicode.

(** The local root of the module system after the names of a grammar are inserted. *)
Inductive Coll : gmodule -> list (text * mnode) -> Prop :=
| Coll_intro g coll :
    (forall alias g', In (File alias g') (g_imports g) -> exists coll', lookup alias coll = Some (M_collection coll') /\ Coll g' coll') ->
    (forall alias p, In (Builtin alias p) (g_imports g) -> exists n, m_resolve_node global p = inl n /\ lookup alias coll = Some n) ->
    (forall r, In r (g_rules g) -> ~ is_trivia_rule r -> lookup (pr_name r) coll = Some (M_generics (RG_rule (length (pr_args r))))) ->
    (forall k, lookup k coll <> None -> In k (map import_alias (g_imports g) ++ map pr_name (plain_rules (g_rules g)))) ->
    Coll g coll.
Lemma made_coll : forall config fuel T g depth o coll, Made config fuel unicode T depth g o coll -> Coll g coll.
Proof.
  intros config fuel T g. induction g as [g IH] using gmodule_rect'. intros depth o coll M.
  destruct M as [depth g o coll reach _ Fl _ Bl Rl K _ _ _ _ _ _]. constructor; [|exact Bl|exact Rl|exact K].
  intros alias g' I. destruct (Fl _ _ I) as (o' & coll' & _ & L & M). exists coll'. split; [exact L|]. eapply IH; eassumption.
Qed.

Lemma coll_own : forall g p x, own_name unicode g p x -> forall coll, Coll g coll ->
  exists n, m_resolve_node (M_collection coll) p = inl n /\ entity_node unicode x n.
Proof.
  intros g p x O. induction O as [g r I N|g alias q rest I B|g alias g' rest x I O IH]; intros coll C; destruct C as [g coll Fl Bl Rl K].
  - eexists. cbn [m_resolve_node m_child]. rewrite (Rl _ I N). split; reflexivity.
  - destruct (Bl _ _ I) as (n & Rn & L). rewrite global_pest, teqb_refl in Rn. apply builtin_spec in B. destruct B as (n' & B).
    exists n'. split; [|exact B]. cbn [m_resolve_node m_child]. rewrite L.
    apply (builtin_node_found _ _ _ Props) in B. rewrite m_descend_app, Rn in B. exact B.
  - destruct (Fl _ _ I) as (coll' & L & C'). destruct (IH _ C') as (n & Rn & S). exists n. split; [|exact S].
    cbn [m_resolve_node m_child]. rewrite L. rewrite <- m_resolve_descend by (intros ->; discriminate). exact Rn.
Qed.
Lemma coll_found : forall p g coll n, Coll g coll -> fine unicode g -> m_resolve_node (M_collection coll) p = inl n ->
  (forall l, n <> M_collection l) -> exists x, own_name unicode g p x.
Proof.
  induction p as [|k rest IH]; intros g coll n C F R N; [discriminate|]. destruct C as [g coll Fl Bl Rl K].
  inversion F as [g0 _ _ Bu _ _ _ _ _ Fi]. subst g0.
  cbn [m_resolve_node m_child] in R. destruct (lookup k coll) as [c|] eqn:L; [|discriminate].
  assert (K' : lookup k coll <> None) by congruence. apply K in K'. apply in_app_or in K'. destruct K' as [K'|K']; apply in_map_iff in K'.
  - destruct K' as ([a p|a g'] & Ek & I); cbn in Ek; subst a.
    + destruct (Bl _ _ I) as (m & Rm & L'). rewrite L in L'. injection L' as ->.
      destruct (Bu _ _ I) as (q & -> & _). rewrite global_pest, teqb_refl in Rm.
      exists (E_builtin (q ++ rest)). apply O_builtin; [exact I|]. apply builtin_spec. exists n.
      assert (D : m_descend (pest_node unicode) (q ++ rest) = inl n) by (rewrite m_descend_app, Rm; exact R).
      apply pest_cases in D. destruct D as [(_ & l & ->)|D]; [exfalso; eapply N; reflexivity|exact D].
    + destruct (Fl _ _ I) as (coll' & L' & C'). rewrite L in L'. injection L' as ->.
      destruct rest as [|k' rest]; [injection R as <-; exfalso; eapply N; reflexivity|].
      destruct (IH _ _ _ C' (Fi _ _ I) R N) as (x & O). exists x. eapply O_file; eassumption.
  - destruct K' as (r & <- & I). apply plain_in in I. destruct I as (I & Nt).
    rewrite (Rl _ I Nt) in L. injection L as <-. destruct rest; [|discriminate]. eexists. apply O_rule; assumption.
Qed.
Lemma global_found : forall p n, m_resolve_node global p = inl n -> exists q, p = lit "pest" :: q /\ m_descend (pest_node unicode) q = inl n.
Proof.
  intros [|k p] n H; [discriminate|]. rewrite global_pest in H. destruct (teqb k (lit "pest")) as [->|]; [|discriminate].
  exists p. split; [reflexivity|exact H].
Qed.
Lemma coll_names : forall g coll p x, Coll g coll -> names unicode g p x ->
  exists n, sys_resolve_node (mkSys coll global) p = inl n /\ entity_node unicode x n.
Proof.
  intros g coll p x C N. unfold sys_resolve_node. cbn [ms_pest ms_root]. destruct N as [p B|p x O N].
  - apply builtin_spec in B. destruct B as (n & B). exists n. rewrite global_pest, teqb_refl, (builtin_node_found _ _ _ Props B).
    split; [reflexivity|exact B].
  - destruct (m_resolve_node global p) as [n|] eqn:R; [|eapply coll_own; eassumption].
    exfalso. apply global_found in R. destruct R as (q & -> & D). apply pest_cases in D.
    destruct (N q eq_refl) as (N1 & N2). destruct D as [(G & _)|B]; [exact (N2 G)|]. apply N1, builtin_spec. exists n. exact B.
Qed.
Lemma coll_named : forall g coll p n, Coll g coll -> fine unicode g -> sys_resolve_node (mkSys coll global) p = inl n ->
  (forall l, n <> M_collection l) -> exists x, names unicode g p x.
Proof.
  intros g coll p n C F R N. unfold sys_resolve_node in R. cbn [ms_pest ms_root] in R.
  destruct (m_resolve_node global p) as [m|] eqn:G.
  - injection R as ->. apply global_found in G. destruct G as (q & -> & D). apply pest_cases in D.
    destruct D as [(_ & l & ->)|B]; [exfalso; eapply N; reflexivity|]. exists (E_builtin q). apply N_builtin, builtin_spec. exists n. exact B.
  - destruct (coll_found _ _ _ _ C F R N) as (x & O). exists x. apply N_own; [exact O|].
    intros q ->. rewrite global_pest, teqb_refl in G. split; intro B.
    + apply builtin_spec in B. destruct B as (mm & B). rewrite (builtin_node_found _ _ _ Props B) in G. discriminate.
    + destruct (group_found unicode q B) as (l & D). congruence.
Qed.
Lemma coll_resolve : forall g coll p args root, Coll g coll -> fine unicode g ->
  ((exists i, sys_resolve (mkSys coll global) (mkRuleRef p args) root = inl i) <-> exists x, names unicode g p x /\ takes x (usage_of args)).
Proof.
  intros g coll p args root C F. unfold sys_resolve. cbn [rr_path rr_args]. split.
  - intros (i & H). destruct (sys_resolve_node _ p) as [n|] eqn:R; [|discriminate].
    assert (L : forall l, n <> M_collection l) by (intros l ->; destruct p; discriminate).
    destruct (coll_named _ _ _ _ C F R L) as (x & N). destruct (coll_names _ _ _ _ C N) as (n' & R' & S). rewrite R in R'. injection R' as <-.
    exists x. split; [exact N|]. eapply get_takes; [exact S|]. destruct p; [discriminate|]. eexists. exact H.
  - intros (x & N & Tk). destruct (coll_names _ _ _ _ C N) as (n & R & S). rewrite R.
    assert (X := names_nonempty unicode _ _ _ N). destruct p as [|k p]; [congruence|]. eapply get_takes; eassumption.
Qed.

(** Expressions. *)
Lemma process_list_each : forall process l tr is tr', process_list process l tr = Ret (is, tr') ->
  forall e, In e l -> exists t i t', process e t = Ret (i, t').
Proof.
  intros process. induction l as [|e l IH]; intros tr is tr' H e' I; [destruct I|]. cbn [process_list] in H.
  destruct (process e tr) as [(i, t)| |] eqn:E; try discriminate. cbn [obind] in H.
  destruct (process_list process l t) as [(is', t')| |] eqn:E'; try discriminate.
  destruct I as [<-|I]; [eauto|]. eapply IH; eassumption.
Qed.
Lemma process_list_all : forall process l, (forall e, In e l -> forall t, exists i t', process e t = Ret (i, t')) ->
  forall tr, exists is tr', process_list process l tr = Ret (is, tr') /\ length is = length l.
Proof.
  intros process. induction l as [|e l IH]; intros P tr; [exists [], tr; split; reflexivity|].
  destruct (P e (or_introl eq_refl) tr) as (i & t & E). destruct (IH (fun e' I => P e' (or_intror I)) t) as (is & t' & E' & L).
  exists (i :: is), t'. cbn [process_list]. rewrite E. cbn [obind]. rewrite E'. cbn [obind length]. rewrite L. split; reflexivity.
Qed.
Lemma process_list_length : forall process l tr is tr', process_list process l tr = Ret (is, tr') -> length is = length l.
Proof.
  intros process. induction l as [|e l IH]; intros tr is tr' H; cbn [process_list] in H; [injection H as <- <-; reflexivity|].
  destruct (process e tr) as [(i, t)| |]; try discriminate. cbn [obind] in H.
  destruct (process_list process l t) as [(is', t')| |] eqn:E; try discriminate. cbn [obind] in H. injection H as <- <-.
  cbn [length]. f_equal. eapply IH, E.
Qed.

Section Expr.
Variable g : gmodule.
Variable params : list text.
Hypothesis F : fine unicode g.
Notation pe coll root := (process_expr params (mkSys coll global) root).
Notation wn := (well_named unicode g params).

Lemma wn_sequence : forall e t, (forall te, In te (sequence_rest t e) -> wn (snd te)) -> wn e.
Proof.
  fix Fx 1. intros [s|s|a b|p args|n|n|[l sl] [r sr] t'|l r|n|n|n|n range|n t'] t H; try (apply (H (t, _)); left; reflexivity).
  cbn [sequence_rest] in H. apply WN_other; [discriminate|]. intros e' O. inversion O; subst.
  - apply (H (t, l)). left. reflexivity.
  - apply (Fx r t'). intros te I. apply H. right. exact I.
Qed.
Lemma wn_choices : forall e, (forall e', In e' (choices_rest e) -> wn e') -> wn e.
Proof.
  fix Fx 1. intros [s|s|a b|p args|n|n|l r t'|[l sl] [r sr]|n|n|n|n range|n t'] H; try (apply H; left; reflexivity).
  cbn [choices_rest] in H. apply WN_other; [discriminate|]. intros e' O. inversion O; subst.
  - apply H. left. reflexivity.
  - apply (Fx r). intros x I. apply H. right. exact I.
Qed.

Lemma process_well_named : forall coll root, Coll g coll -> forall fuel e tr i tr', pe coll root fuel e tr = Ret (i, tr') -> wn e.
Proof.
  intros coll root C. induction fuel as [|fuel IH]; intros e tr i tr' H; [discriminate|]. cbn [process_expr] in H.
  destruct e as [s|s|a b|path args|n|n|l r t|l r|n|n|n|n range|n t].
  - apply WN_other; [discriminate|]. intros e' O. inversion O.
  - apply WN_other; [discriminate|]. intros e' O. inversion O.
  - apply WN_other; [discriminate|]. intros e' O. inversion O.
  - destruct (match path with [x] => if text_in x params then Some x else None | _ => None end) as [x|] eqn:P.
    + destruct path as [|y [|y' path]]; try discriminate. destruct (text_in y params) eqn:Q; [|discriminate].
      apply WN_param. apply (reflect_iff _ _ (text_in_spec _ _)), Q.
    + assert (Np : forall y, path = [y] -> ~ In y params).
      { intros y -> J. apply (reflect_iff _ _ (text_in_spec _ _)) in J. rewrite J in P. discriminate. }
      destruct args as [[l|range]|].
      * destruct (process_list (pe coll root fuel) (map n_expr l) tr) as [(is, t)| |] eqn:E; try discriminate. cbn [obind] in H.
        destruct (sys_resolve _ _ _) as [j|] eqn:R; [|discriminate].
        destruct (proj1 (coll_resolve g coll path (Some (PA_call is)) root C F)) as (x & N & Tk); [eexists; exact R|].
        eapply (WN_path _ _ _ path _ x); [exact Np|exact N| |].
        -- cbn [usage_of usage_in] in *. rewrite (process_list_length _ _ _ _ _ E), map_length in Tk. exact Tk.
        -- intros l' n El I. injection El as <-. destruct (process_list_each _ _ _ _ _ E (n_expr n) (in_map n_expr _ _ I)) as (t1 & i1 & t2 & E').
           eapply IH, E'.
      * cbn [obind] in H. destruct (sys_resolve _ _ _) as [j|] eqn:R; [|discriminate].
        destruct (proj1 (coll_resolve g coll path (Some (PA_slice range)) root C F)) as (x & N & Tk); [eexists; exact R|].
        eapply (WN_path _ _ _ path _ x); [exact Np|exact N|exact Tk|]. intros; discriminate.
      * cbn [obind] in H. destruct (sys_resolve _ _ _) as [j|] eqn:R; [|discriminate].
        destruct (proj1 (coll_resolve g coll path None root C F)) as (x & N & Tk); [eexists; exact R|].
        eapply (WN_path _ _ _ path _ x); [exact Np|exact N|exact Tk|]. intros; discriminate.
  - destruct (pe coll root fuel (n_expr n) tr) as [(j, t1)| |] eqn:E; try discriminate. apply WN_other; [discriminate|].
    intros e' O. inversion O; subst. eapply IH, E.
  - destruct (pe coll root fuel (n_expr n) tr) as [(j, t1)| |] eqn:E; try discriminate. apply WN_other; [discriminate|].
    intros e' O. inversion O; subst. eapply IH, E.
  - destruct (process_list (pe coll root fuel) _ tr) as [(is, t1)| |] eqn:E; try discriminate.
    assert (W : forall te, In te (collect_sequence (n_expr l) (n_expr r) t) -> wn (snd te)).
    { intros te I. destruct (process_list_each _ _ _ _ _ E (snd te) (in_map snd _ _ I)) as (a & b & c & E'). eapply IH, E'. }
    apply WN_other; [discriminate|]. intros e' O. inversion O; subst.
    + apply (W (TriviaNone, n_expr l)). left. reflexivity.
    + apply (wn_sequence (n_expr r) t). intros te I. apply W. right. exact I.
  - destruct (process_list (pe coll root fuel) _ tr) as [(is, t1)| |] eqn:E; try discriminate.
    assert (W : forall e, In e (collect_choices (n_expr l) (n_expr r)) -> wn e).
    { intros e I. destruct (process_list_each _ _ _ _ _ E e I) as (a & b & c & E'). eapply IH, E'. }
    apply WN_other; [discriminate|]. intros e' O. inversion O; subst.
    + apply W. left. reflexivity.
    + apply wn_choices. intros e I. apply W. right. exact I.
  - destruct (pe coll root fuel (n_expr n) tr) as [(j, t1)| |] eqn:E; try discriminate. apply WN_other; [discriminate|].
    intros e' O. inversion O; subst. eapply IH, E.
  - destruct (pe coll root fuel (n_expr n) tr) as [(j, t1)| |] eqn:E; try discriminate. apply WN_other; [discriminate|].
    intros e' O. inversion O; subst. eapply IH, E.
  - destruct (pe coll root fuel (n_expr n) tr) as [(j, t1)| |] eqn:E; try discriminate. apply WN_other; [discriminate|].
    intros e' O. inversion O; subst. eapply IH, E.
  - destruct (pe coll root fuel (n_expr n) tr) as [(j, t1)| |] eqn:E; try discriminate. apply WN_other; [discriminate|].
    intros e' O. inversion O; subst. eapply IH, E.
  - apply WN_other; [discriminate|]. intros e' O. inversion O; subst. eapply IH, H.
Qed.

(** With enough fuel all well-named expressions are accepted. *)
Definition runs (k : nat) (e : parse_expr) : Prop := forall coll root, Coll g coll -> forall fuel, k <= fuel ->
  forall tr, exists i tr', pe coll root fuel e tr = Ret (i, tr').
Lemma runs_more : forall k k' e, k <= k' -> runs k e -> runs k' e.
Proof. intros k k' e L R coll root C fuel L'. apply R; [exact C|lia]. Qed.
Lemma runs_all : forall l, (forall e, In e l -> exists k, runs k e) -> exists k, forall e, In e l -> runs k e.
Proof.
  induction l as [|e l IH]; intro H; [exists 0; intros e []|]. destruct (H e (or_introl eq_refl)) as (k & R).
  destruct IH as (k' & R'); [intros e' I; apply H; right; exact I|]. exists (max k k'). intros e' [<-|I].
  - eapply runs_more; [|exact R]. lia.
  - eapply runs_more; [|exact (R' _ I)]. lia.
Qed.
Lemma runs_sequence : forall e t k, runs k e -> forall coll root, Coll g coll -> forall fuel, k <= fuel -> forall tr,
  exists is tr', process_list (pe coll root fuel) (map snd (sequence_rest t e)) tr = Ret (is, tr').
Proof.
  intros e t k R coll root C fuel L tr.
  destruct e as [s|s|a b|p args|n|n|[l sl] [r sr] t'|l r|n|n|n|n range|n t'];
    try (cbn [sequence_rest map snd process_list]; destruct (R coll root C fuel L tr) as (i & t1 & E1); rewrite E1; cbn [obind]; eauto; fail).
  destruct (R coll root C (S fuel)) with (tr := tr) as (i & t1 & E1); [lia|]. cbn [process_expr n_expr] in E1.
  change (map snd (sequence_rest t (PSeq (mkNode l sl) (mkNode r sr) t'))) with (map snd (collect_sequence l r t')).
  destruct (process_list (pe coll root fuel) _ tr) as [(is, t2)| |]; [eauto|discriminate|discriminate].
Qed.
Lemma runs_choices : forall e k, runs k e -> forall coll root, Coll g coll -> forall fuel, k <= fuel -> forall tr,
  exists is tr', process_list (pe coll root fuel) (choices_rest e) tr = Ret (is, tr').
Proof.
  intros e k R coll root C fuel L tr.
  destruct e as [s|s|a b|p args|n|n|l r t'|[l sl] [r sr]|n|n|n|n range|n t'];
    try (cbn [choices_rest process_list]; destruct (R coll root C fuel L tr) as (i & t1 & E1); rewrite E1; cbn [obind]; eauto; fail).
  destruct (R coll root C (S fuel)) with (tr := tr) as (i & t1 & E1); [lia|]. cbn [process_expr n_expr] in E1.
  change (choices_rest (PChoice (mkNode l sl) (mkNode r sr))) with (collect_choices l r).
  destruct (process_list (pe coll root fuel) _ tr) as [(is, t2)| |]; [eauto|discriminate|discriminate].
Qed.

Lemma well_named_runs : forall e, wn e -> exists k, runs k e.
Proof.
  intros e W. induction W as [x args I|path args x N Nm Tk W IH|e N W IH].
  - exists 1. intros coll root C [|fuel] L tr; [lia|]. cbn [process_expr]. apply (reflect_iff _ _ (text_in_spec _ _)) in I. rewrite I. eauto.
  - assert (Pn : match path with [x] => if text_in x params then Some x else None | _ => None end = None).
    { destruct path as [|y [|y' path]]; try reflexivity. destruct (text_in y params) eqn:Q; [|reflexivity].
      exfalso. apply (N y eq_refl), (reflect_iff _ _ (text_in_spec _ _)), Q. }
    destruct args as [[l|range]|].
    + destruct (runs_all (map n_expr l)) as (k & R).
      { intros e I. apply in_map_iff in I. destruct I as (n & <- & I). eapply IH; [reflexivity|exact I]. }
      exists (S k). intros coll root C [|fuel] L tr; [lia|]. cbn [process_expr]. rewrite Pn.
      destruct (process_list_all (pe coll root fuel) (map n_expr l)) with (tr := tr) as (is & t & E & Ln).
      { intros e I t. apply (R e I coll root C fuel). lia. }
      rewrite E. cbn [obind].
      destruct (proj2 (coll_resolve g coll path (Some (PA_call is)) root C F)) as (i & Ri).
      { exists x. split; [exact Nm|]. cbn [usage_of usage_in] in *. rewrite Ln, map_length. exact Tk. }
      rewrite Ri. eauto.
    + exists 1. intros coll root C [|fuel] L tr; [lia|]. cbn [process_expr]. rewrite Pn. cbn [obind].
      destruct (proj2 (coll_resolve g coll path (Some (PA_slice range)) root C F)) as (i & Ri); [eauto|]. rewrite Ri. eauto.
    + exists 1. intros coll root C [|fuel] L tr; [lia|]. cbn [process_expr]. rewrite Pn. cbn [obind].
      destruct (proj2 (coll_resolve g coll path None root C F)) as (i & Ri); [eauto|]. rewrite Ri. eauto.
  - assert (One : forall n, operand_of (n_expr n) e -> exists k, runs k (n_expr n)) by (intros n O; apply IH, O).
    destruct e as [s|s|a b|path args|n|n|l r t|l r|n|n|n|n range|n t].
    + exists 1. intros coll root C [|fuel] L tr; [lia|]. cbn [process_expr]. destruct (insert_string_wrapper s tr). eauto.
    + exists 1. intros coll root C [|fuel] L tr; [lia|]. cbn [process_expr]. destruct (insert_string_wrapper s tr). eauto.
    + exists 1. intros coll root C [|fuel] L tr; [lia|]. cbn [process_expr]. eauto.
    + exfalso. eapply N. reflexivity.
    + destruct (One n) as (k & R); [constructor|]. exists (S k). intros coll root C [|fuel] L tr; [lia|]. cbn [process_expr].
      destruct (R coll root C fuel) with (tr := tr) as (i & t1 & E); [lia|]. rewrite E. cbn [obind]. eauto.
    + destruct (One n) as (k & R); [constructor|]. exists (S k). intros coll root C [|fuel] L tr; [lia|]. cbn [process_expr].
      destruct (R coll root C fuel) with (tr := tr) as (i & t1 & E); [lia|]. rewrite E. cbn [obind]. eauto.
    + destruct (One l) as (k & R); [constructor|]. destruct (One r) as (k' & R'); [constructor|].
      exists (S (max k k')). intros coll root C [|fuel] L tr; [lia|]. cbn [process_expr]. unfold collect_sequence. cbn [map snd process_list].
      destruct (R coll root C fuel) with (tr := tr) as (i & t1 & E); [lia|]. rewrite E. cbn [obind].
      destruct (runs_sequence _ t _ R' coll root C fuel) with (tr := t1) as (is & t2 & E2); [lia|]. rewrite E2. cbn [obind]. eauto.
    + destruct (One l) as (k & R); [constructor|]. destruct (One r) as (k' & R'); [constructor|].
      exists (S (max k k')). intros coll root C [|fuel] L tr; [lia|]. cbn [process_expr]. unfold collect_choices. cbn [process_list].
      destruct (R coll root C fuel) with (tr := tr) as (i & t1 & E); [lia|]. rewrite E. cbn [obind].
      destruct (runs_choices _ _ R' coll root C fuel) with (tr := t1) as (is & t2 & E2); [lia|]. rewrite E2. cbn [obind]. eauto.
    + destruct (One n) as (k & R); [constructor|]. exists (S k). intros coll root C [|fuel] L tr; [lia|]. cbn [process_expr].
      destruct (R coll root C fuel) with (tr := tr) as (i & t1 & E); [lia|]. rewrite E. cbn [obind]. eauto.
    + destruct (One n) as (k & R); [constructor|]. exists (S k). intros coll root C [|fuel] L tr; [lia|]. cbn [process_expr].
      destruct (R coll root C fuel) with (tr := tr) as (i & t1 & E); [lia|]. rewrite E. cbn [obind]. eauto.
    + destruct (One n) as (k & R); [constructor|]. exists (S k). intros coll root C [|fuel] L tr; [lia|]. cbn [process_expr].
      destruct (R coll root C fuel) with (tr := tr) as (i & t1 & E); [lia|]. rewrite E. cbn [obind]. eauto.
    + destruct (One n) as (k & R); [constructor|]. exists (S k). intros coll root C [|fuel] L tr; [lia|]. cbn [process_expr].
      destruct (R coll root C fuel) with (tr := tr) as (i & t1 & E); [lia|]. rewrite E. cbn [obind]. eauto.
    + destruct (One n) as (k & R); [constructor|]. exists (S k). intros coll root C [|fuel] L tr; [lia|]. cbn [process_expr].
      destruct (R coll root C fuel) with (tr := tr) as (i & t1 & E); [lia|]. rewrite E. eauto.
Qed.
End Expr.

(** The trivia asked for are defined. *)
Lemma find_rule_spec : forall name rules, find_rule name rules <> None <-> exists r, In r rules /\ pr_name r = name.
Proof.
  intros name rules. unfold find_rule. split.
  - intro H. destruct (find _ rules) as [r|] eqn:E; [|congruence]. apply find_some in E. destruct E as (I & E).
    exists r. split; [exact I|]. destruct (teqb (pr_name r) name); [assumption|discriminate].
  - intros (r & I & <-) H. apply (find_none _ _ H) in I. rewrite teqb_refl in I. discriminate.
Qed.
Definition trivia_defined (all : list parse_rule) (r : parse_rule) : Prop :=
  forall t name, asks (n_expr (pr_node r)) t -> trivia_name t = Some name -> exists r', In r' all /\ pr_name r' = name.
Lemma collect_used_ok : forall all r, (exists l, collect_used_rule all r = Ret l) <-> trivia_defined all r.
Proof.
  intros all r. unfold collect_used_rule, trivia_defined. set (e := n_expr (pr_node r)).
  assert (M : forall t name, uses_trivia t e && match find_rule (lit name) all with None => true | Some _ => false end = false <->
    (asks e t -> exists r', In r' all /\ pr_name r' = lit name)).
  { intros t name. rewrite <- find_rule_spec, <- uses_trivia_spec, andb_false_iff. destruct (uses_trivia t e), (find_rule (lit name) all);
      split; intro H; auto; try (intros; congruence).
    - destruct H; discriminate.
    - exfalso. apply H; reflexivity. }
  destruct (_ || _) eqn:Q.
  - apply orb_true_iff in Q. split; [intros (l & H); discriminate|]. intro H. exfalso. destruct Q as [Q|Q].
    + assert (X : false = true); [|discriminate]. rewrite <- Q. symmetry. apply M. intro A. exact (H TriviaOptional _ A eq_refl).
    + assert (X : false = true); [|discriminate]. rewrite <- Q. symmetry. apply M. intro A. exact (H TriviaMandatory _ A eq_refl).
  - apply orb_false_iff in Q. destruct Q as (Q1 & Q2). split; [|eauto]. intros _ t name A E. destruct t; try discriminate; injection E as <-.
    + apply (proj1 (M TriviaOptional "~"%string) Q1 A).
    + apply (proj1 (M TriviaMandatory "^"%string) Q2 A).
Qed.
Lemma collect_direct_ok : forall all rules res,
  (exists l, collect_direct all rules res = Ret l) <-> forall r, In r rules -> trivia_defined all r.
Proof.
  intros all. induction rules as [|r rules IH]; intro res; cbn [collect_direct]; [split; [intros _ r []|eauto]|].
  destruct (collect_used_rule all r) as [l| |] eqn:E; cbn [obind].
  - rewrite IH. split; [|intros H r' I; apply H; right; exact I].
    intros H r' [<-|I]; [apply collect_used_ok; eauto|apply H, I].
  - split; [intros (l & H); discriminate|]. intro H. destruct (proj2 (collect_used_ok all r)) as (l & H'); [apply H; left; reflexivity|congruence].
  - split; [intros (l & H); discriminate|]. intro H. destruct (proj2 (collect_used_ok all r)) as (l & H'); [apply H; left; reflexivity|congruence].
Qed.
Lemma reachability_ok : forall rules, (exists reach, collect_reachability rules = Ret reach) <-> forall r, In r rules -> trivia_defined rules r.
Proof.
  intro rules. rewrite <- (collect_direct_ok rules rules []). unfold collect_reachability.
  destruct (collect_direct rules rules []) as [l| |]; cbn [obind]; split; intros (x & H); try discriminate; eauto.
Qed.

(** Names are inserted without collision. *)
Lemma insert_rules_ok : forall rules sys,
  NoDup (map pr_name (plain_rules rules)) -> (forall k, In k (map pr_name (plain_rules rules)) -> lookup k (ms_root sys) = None) ->
  exists sys', insert_rules rules sys = Ret sys'.
Proof.
  induction rules as [|r rules IH]; intros sys D N; cbn [insert_rules]; [eauto|].
  unfold plain_rules in D, N. cbn [filter] in D, N. destruct (is_trivia_name (pr_name r)) eqn:E; cbn [negb] in D, N; [apply IH; assumption|].
  fold (plain_rules rules) in D, N. unfold sys_insert_rule, m_insert. rewrite (N (pr_name r)) by (left; reflexivity). cbn [obind].
  cbn [map] in D. inversion_clear D as [|? ? Nr D']. apply IH; [exact D'|]. intros k I. cbn [ms_root].
  rewrite lookup_insert_other by (intros ->; contradiction). apply N. right. exact I.
Qed.
Lemma imports_ok : forall process l sys tr, ms_pest sys = global ->
  (forall alias g', In (File alias g') l -> forall t, good_tracker t -> exists o c t', process g' t = Ret (o, c, t') /\ good_tracker t') ->
  (forall alias p, In (Builtin alias p) l -> exists n, m_resolve_node global p = inl n) ->
  NoDup (map import_alias l) -> good_tracker tr -> (forall k, In k (map import_alias l) -> lookup k (ms_root sys) = None) ->
  exists modules sys' tr', imports_loop process l sys tr = Ret (modules, sys', tr').
Proof.
  intros process. induction l as [|[name path|name g'] l IH]; intros sys tr Ps P B D Gt N; cbn [imports_loop]; [eauto| |].
  - unfold sys_alias, sys_resolve_node. rewrite Ps. destruct (B name path (or_introl eq_refl)) as (n & Rn). rewrite Rn.
    unfold m_insert. rewrite (N name) by (left; reflexivity). cbn [obind]. cbn [map] in D. inversion_clear D as [|? ? Nn D'].
    apply IH; try assumption; [reflexivity|intros; eapply P; [right|]; eassumption|intros; eapply B; right; eassumption|].
    intros k I. cbn [ms_root]. rewrite lookup_insert_other by (intros ->; contradiction). apply N. right. exact I.
  - destruct (P name g' (or_introl eq_refl) tr Gt) as (o & c & t' & E & Gt'). rewrite E. cbn [obind].
    cbn [map] in D. inversion_clear D as [|? ? Nn D'].
    destruct (IH (sys_insert sys name (M_collection c)) t') as (ms & s & t & E'); try assumption.
    + intros; eapply P; [right|]; eassumption.
    + intros; eapply B; right; eassumption.
    + intros k I. unfold sys_insert, m_insert. cbn [ms_root fst]. rewrite lookup_insert_other by (intros ->; contradiction). apply N. right. exact I.
    + rewrite E'. cbn [obind]. eauto.
Qed.
Lemma process_all_ok : forall config fuel sys reach root depth rules,
  (forall r, In r rules -> forall tr, exists i tr', process_expr (pr_args r) sys root fuel (n_expr (pr_node r)) tr = Ret (i, tr')) ->
  forall tr o, exists o' tr', process_all config fuel sys reach root depth rules tr o = Ret (o', tr').
Proof.
  intros config fuel sys reach root depth. induction rules as [|r rules IH]; intros P tr o; cbn [process_all]; [eauto|].
  unfold process_rule. destruct (P r (or_introl eq_refl) tr) as (i & t & E). rewrite E. cbn [obind]. destruct o as [c a b m v]. cbn [obind].
  apply IH. intros r' I. apply P. right. exact I.
Qed.

Section Whole.
Variable config : gconfig.
Notation res := (builtin_resolves_all unicode Props).

(** The module system when the rules are processed. *)
Lemma names_coll : forall fuel depth g tr modules sys1 t1 sys2, fine unicode g -> good_tracker tr ->
  imports_loop (process_rules config fuel global (root_of (S depth)) (S depth)) (g_imports g) (mkSys [] global) tr = Ret (modules, sys1, t1) ->
  insert_rules (g_rules g) sys1 = Ret sys2 -> Coll g (ms_root sys2) /\ ms_pest sys2 = global /\ good_tracker t1.
Proof.
  intros fuel depth g tr modules sys1 t1 sys2 F G E1 E3. inversion F as [g0 Nd _ Bu _ _ _ _ _ Fi]. subst g0.
  assert (Ps := imports_pest _ _ _ _ _ _ _ E1). cbn [ms_pest] in Ps.
  destruct (imports_spec _ _ _ _ _ _ _ E1) as (P1 & G1 & X1 & O1 & Fl & Fl' & Bl & Nm).
  { intros alias g' t o c t' I Hp Gt. eapply process_rules_spec in Hp; [|exact res|eapply Fi; exact I|exact Gt]. split; apply Hp. }
  { intros alias p I. destruct (Bu alias p I) as (q & -> & Q).
    destruct (res q) as (n & Rn); [destruct Q as [Q|(Q & _)]; [right; exact Q|left; exact Q]|].
    exists n. intros sys Es. unfold sys_resolve_node. rewrite Es, Ps, global_pest, teqb_refl, Rn. reflexivity. }
  { exact Nd. } { exact G. } { reflexivity. }
  destruct (insert_rules_spec _ _ _ E3) as (P2 & O2 & I2 & N2 & D2). cbn [ms_root ms_pest] in *.
  assert (Sep : forall k, In k (map pr_name (plain_rules (g_rules g))) -> ~ In k (map import_alias (g_imports g))).
  { intros k I J. apply N2 in I. apply in_map_iff in J. destruct J as ([a p|a g'] & Ek & J); cbn in Ek; subst a.
    - destruct (Bl _ _ J) as (n & L & _). congruence.
    - destruct (Fl _ _ J) as (o' & c' & t & t' & _ & L & _). congruence. }
  split; [|split; [congruence|exact G1]]. constructor.
  - intros alias g' I. destruct (Fl alias g' I) as (o' & c' & t & t' & Im & L & Hp & Gt & Xt). exists c'.
    assert (Ia : In alias (map import_alias (g_imports g))) by (apply (in_map import_alias) in I; exact I).
    split; [rewrite O2; [exact L|intro J; exact (Sep _ J Ia)]|].
    destruct (process_rules_spec config fuel unicode res _ _ _ _ _ _ Hp (Fi _ _ I) Gt) as (_ & _ & Mk).
    eapply made_coll, (Mk t'), extends_refl.
  - intros alias p I. destruct (Bl alias p I) as (n & L & Rn). exists n.
    assert (Ia : In alias (map import_alias (g_imports g))) by (apply (in_map import_alias) in I; exact I).
    split; [|rewrite O2; [exact L|intro J; exact (Sep _ J Ia)]].
    specialize (Rn (mkSys [] global) (eq_sym Ps)). unfold sys_resolve_node in Rn. cbn [ms_pest ms_root] in Rn.
    destruct (m_resolve_node global p) as [m|]; [exact Rn|]. destruct p; discriminate.
  - intros r I N. apply I2. apply plain_in. split; assumption.
  - intros k L. apply in_or_app. destruct (in_dec (list_eq_dec N.eq_dec) k (map pr_name (plain_rules (g_rules g)))) as [J|J]; [right; exact J|left].
    rewrite O2 in L by exact J. destruct (in_dec (list_eq_dec N.eq_dec) k (map import_alias (g_imports g))) as [J'|J']; [exact J'|].
    rewrite O1 in L by exact J'. cbn in L. congruence.
Qed.

Lemma process_all_each : forall fuel sys reach root depth rules tr o o' tr',
  process_all config fuel sys reach root depth rules tr o = Ret (o', tr') ->
  forall r, In r rules -> exists t i t', process_expr (pr_args r) sys root fuel (n_expr (pr_node r)) t = Ret (i, t').
Proof.
  intros fuel sys reach root depth. induction rules as [|r' rules IH]; intros tr o o' tr' E r I; [destruct I|].
  cbn [process_all] in E. unfold process_rule in E.
  destruct (process_expr _ _ _ _ (n_expr (pr_node r')) tr) as [(i, t')| |] eqn:Ep; try discriminate. cbn [obind] in E.
  destruct o as [c a b m v]. cbn [obind] in E. destruct I as [<-|I]; [eauto|]. eapply IH; eassumption.
Qed.

Lemma accepted_complete : forall g fuel depth tr o coll tr', process_rules config fuel global (root_of depth) depth g tr = Ret (o, coll, tr') ->
  fine unicode g -> good_tracker tr -> complete unicode g.
Proof.
  intro g. induction g as [g IH] using gmodule_rect'. intros fuel depth tr o coll tr' H F G.
  assert (Mk := proj2 (proj2 (process_rules_spec config fuel unicode res _ _ _ _ _ _ H F G)) tr' (extends_refl _)).
  assert (Nd : NoDup (map import_alias (g_imports g) ++ map pr_name (plain_rules (g_rules g)))) by (destruct Mk; assumption).
  rewrite process_rules_eq in H.
  destruct (imports_loop _ (g_imports g) (mkSys [] global) tr) as [((modules, sys1), t1)| |] eqn:E1; try discriminate. cbn [obind] in H.
  destruct (collect_reachability (g_rules g)) as [reach| |] eqn:E2; try discriminate. cbn [obind] in H.
  destruct (insert_rules (g_rules g) sys1) as [sys2| |] eqn:E3; try discriminate. cbn [obind] in H.
  destruct (process_all _ _ _ _ _ _ _ _ _) as [(o1, t2)| |] eqn:E4; try discriminate. cbn [obind] in H. injection H as <- <- <-.
  change ([lit "super"; lit "super"] ++ root_of depth) with (root_of (S depth)) in E1.
  destruct (names_coll _ _ _ _ _ _ _ _ F G E1 E3) as (C & Ps & G1).
  assert (Es : sys2 = mkSys (ms_root sys2) global) by (destruct sys2 as [rt ps]; cbn in *; congruence). rewrite Es in E4.
  inversion F as [g0 Na _ Bu _ _ _ _ _ Fi]. subst g0.
  constructor.
  - exact Nd.
  - intros r I. destruct (process_all_each _ _ _ _ _ _ _ _ _ _ E4 r I) as (t & i & t' & E). eapply process_well_named; eassumption.
  - intros r t name I A N. exact (proj1 (reachability_ok (g_rules g)) (ex_intro _ reach E2) r I t name A N).
  - intros alias g' I.
    destruct (imports_spec _ _ _ _ _ _ _ E1) as (_ & _ & _ & _ & Fl & _).
    { intros a g1 t o c t' J Hp Gt. eapply process_rules_spec in Hp; [|exact res|eapply Fi; exact J|exact Gt]. split; apply Hp. }
    { intros a p J. destruct (Bu a p J) as (q & -> & Q).
      destruct (res q) as (n & Rn); [destruct Q as [Q|(Q & _)]; [right; exact Q|left; exact Q]|].
      exists n. intros sys Es'. unfold sys_resolve_node. rewrite Es', (imports_pest _ _ _ _ _ _ _ E1). cbn [ms_pest]. rewrite global_pest, teqb_refl, Rn. reflexivity. }
    { exact Na. } { exact G. } { reflexivity. }
    destruct (Fl _ _ I) as (o' & c' & t & t' & _ & _ & Hp & Gt & _). eapply IH; [exact I|exact Hp|exact (Fi _ _ I)|exact Gt].
Qed.

Lemma complete_accepted : forall g, fine unicode g -> complete unicode g ->
  exists k, forall fuel, k <= fuel -> forall depth tr, good_tracker tr ->
    exists o coll tr', process_rules config fuel global (root_of depth) depth g tr = Ret (o, coll, tr').
Proof.
  intro g. induction g as [g IH] using gmodule_rect'. intros F Cp.
  inversion F as [g0 Na _ Bu _ _ _ _ _ Fi]. subst g0. inversion Cp as [g0 Nd Wn Tr Ci]. subst g0.
  change (NoDup (map import_alias (g_imports g) ++ map pr_name (plain_rules (g_rules g)))) in Nd.
  assert (X1 : exists k, forall alias g', In (File alias g') (g_imports g) -> forall fuel, k <= fuel -> forall depth tr, good_tracker tr ->
    exists o coll tr', process_rules config fuel global (root_of depth) depth g' tr = Ret (o, coll, tr')).
  { assert (X : forall alias g', In (File alias g') (g_imports g) -> exists k, forall fuel, k <= fuel -> forall depth tr, good_tracker tr ->
      exists o coll tr', process_rules config fuel global (root_of depth) depth g' tr = Ret (o, coll, tr')) by (intros; eapply IH; eauto).
    revert X. clear. generalize (g_imports g). induction l as [|[a p|a g'] l IHl]; intro X.
    - exists 0. intros alias g' [].
    - destruct IHl as (k & K); [intros; eapply X; right; eassumption|]. exists k. intros alias g' [D|I]; [discriminate|eapply K, I].
    - destruct IHl as (k & K); [intros; eapply X; right; eassumption|]. destruct (X a g' (or_introl eq_refl)) as (k' & K').
      exists (max k k'). intros alias g2 [D|I] fuel L; [injection D as <- <-; apply K'; lia|]. eapply K; [exact I|lia]. }
  assert (X2 : exists k, forall r, In r (g_rules g) -> runs g (pr_args r) k (n_expr (pr_node r))).
  { assert (X : forall r, In r (g_rules g) -> exists k, runs g (pr_args r) k (n_expr (pr_node r))) by (intros; apply well_named_runs; auto).
    revert X. clear. generalize (g_rules g) as l. induction l as [|r l IHl]; intro X; [exists 0; intros r []|].
    destruct IHl as (k & K); [intros; apply X; right; assumption|]. destruct (X r (or_introl eq_refl)) as (k' & K').
    exists (max k k'). intros r' [<-|I]; eapply runs_more; [|exact K'| |exact (K _ I)]; lia. }
  destruct X1 as (k1 & X1). destruct X2 as (k2 & X2). exists (max k1 k2). intros fuel L depth tr G.
  rewrite process_rules_eq. change ([lit "super"; lit "super"] ++ root_of depth) with (root_of (S depth)).
  destruct (imports_ok (process_rules config fuel global (root_of (S depth)) (S depth)) (g_imports g) (mkSys [] global) tr) as (ms & s1 & t1 & E1).
  - reflexivity.
  - intros alias g' I t Gt. destruct (X1 _ _ I fuel) with (depth := S depth) (tr := t) as (o & c & t' & E); [lia|exact Gt|].
    exists o, c, t'. split; [exact E|]. eapply process_rules_spec in E; [|exact res|eapply Fi; exact I|exact Gt]. apply E.
  - intros alias p I. destruct (Bu _ _ I) as (q & -> & Q). destruct (res q) as (n & Rn); [destruct Q as [Q|(Q & _)]; [right; exact Q|left; exact Q]|].
    exists n. rewrite global_pest, teqb_refl. exact Rn.
  - exact Na.
  - exact G.
  - reflexivity.
  - rewrite E1. cbn [obind].
    destruct (proj2 (reachability_ok (g_rules g))) as (reach & E2).
    { intros r I t name A N. exact (Tr r t name I A N). }
    rewrite E2. cbn [obind].
    destruct (insert_rules_ok (g_rules g) s1) as (s2 & E3).
    { clear - Nd. revert Nd. generalize (map import_alias (g_imports g)) as a. induction a as [|x a IHa]; intro Nd; [exact Nd|]. inversion_clear Nd. auto. }
    { intros k I. destruct (imports_spec _ _ _ _ _ _ _ E1) as (_ & _ & _ & O1 & _).
      { intros a g1 t o c t' J Hp Gt. eapply process_rules_spec in Hp; [|exact res|eapply Fi; exact J|exact Gt]. split; apply Hp. }
      { intros a p J. destruct (Bu a p J) as (q & -> & Q).
        destruct (res q) as (n & Rn); [destruct Q as [Q|(Q & _)]; [right; exact Q|left; exact Q]|].
        exists n. intros sys Es'. unfold sys_resolve_node. rewrite Es', (imports_pest _ _ _ _ _ _ _ E1). cbn [ms_pest]. rewrite global_pest, teqb_refl, Rn. reflexivity. }
      { exact Na. } { exact G. } { reflexivity. }
      rewrite O1; [reflexivity|]. intro J. revert I J. clear - Nd. revert Nd. generalize (map import_alias (g_imports g)) as a.
      generalize (map pr_name (plain_rules (g_rules g))) as b. intros b a. induction a as [|x a IHa]; intros Nd I J; [destruct J|].
      cbn [app] in Nd. inversion_clear Nd as [|? ? N D]. destruct J as [->|J]; [apply N, in_or_app; right; exact I|]. apply IHa; assumption. }
    rewrite E3. cbn [obind].
    destruct (names_coll _ _ _ _ _ _ _ _ F G E1 E3) as (C & Ps & G1).
    destruct (process_all_ok config fuel s2 reach (root_of depth) depth (g_rules g)) with (tr := t1) (o := mkOutput [] None None ms (rule_enum g)) as (o & t2 & E4).
    { intros r I tr0. assert (Es : s2 = mkSys (ms_root s2) global) by (destruct s2 as [rt ps]; cbn in *; congruence). rewrite Es.
      apply (X2 r I _ (root_of depth) C). lia. }
    rewrite E4. cbn [obind]. eauto.
Qed.

Lemma accepts_iff : forall g, fine unicode g ->
  ((exists fuel o tr, generate_output config fuel unicode g = Ret (o, tr)) <-> complete unicode g).
Proof.
  intros g F. unfold generate_output. change [lit "super"] with (root_of 0). split.
  - intros (fuel & o & tr & H). destruct (existsb _ (raw_names g)); [discriminate H|]. destruct (process_rules _ _ _ _ _ _ _) as [((o', c), t)| |] eqn:E; try discriminate.
    eapply accepted_complete; [exact E|exact F|apply good_new].
  - intro Cp. destruct (complete_accepted g F Cp) as (k & K). destruct (K k (le_n k) 0 gt_new good_new) as (o & c & t & E).
    exists k, o, t. rewrite (fine_raw unicode g F), E. reflexivity.
Qed.
End Whole.
End Accept.

(** Names in a complete grammar. *)
Lemma own_unique' : forall unicode g p x, own_name unicode g p x -> forall y, complete unicode g -> own_name unicode g p y -> x = y.
Proof.
  intros unicode g p x O. induction O as [g r I N|g alias q rest I B|g alias g' rest x I O IH]; intros y Cp O';
    assert (Nd : NoDup (map import_alias (g_imports g) ++ map pr_name (plain_rules (g_rules g))))
      by (inversion Cp; assumption).
  - inversion O' as [g0 r' I' N' Eg Ep|g0 alias q rest I' B' Eg Ep|g0 alias g' rest y0 I' O1 Eg Ep]; subst.
    + f_equal. eapply (nodup_map pr_name (plain_rules (g_rules g))); [eapply nodup_app_r, Nd| | |symmetry; exact H || congruence].
      * apply plain_in. split; assumption.
      * apply plain_in. split; assumption.
    + exfalso. eapply (nodup_app_no _ _ (pr_name r) Nd); [apply (in_map import_alias) in I'; exact I'|].
      apply (in_map pr_name), plain_in. split; assumption.
    + inversion O1.
  - inversion O' as [g0 r' I' N' Eg Ep|g0 alias' q' rest' I' B' Eg Ep|g0 alias' g' rest' y0 I' O1 Eg Ep]; subst.
    + exfalso. eapply (nodup_app_no _ _ (pr_name r') Nd); [apply (in_map import_alias) in I; exact I|].
      apply (in_map pr_name), plain_in. split; assumption.
    + assert (X : Builtin alias (lit "pest" :: q) = Builtin alias (lit "pest" :: q')).
      { eapply (nodup_map import_alias); [eapply nodup_app_l, Nd|exact I|exact I'|reflexivity]. }
      injection X as ->. reflexivity.
    + assert (X : Builtin alias (lit "pest" :: q) = File alias g').
      { eapply (nodup_map import_alias); [eapply nodup_app_l, Nd|exact I|exact I'|reflexivity]. }
      discriminate.
  - inversion O' as [g0 r' I' N' Eg Ep|g0 alias' q' rest' I' B' Eg Ep|g0 alias' g1 rest' y0 I' O1 Eg Ep]; subst.
    + inversion O.
    + assert (X : File alias g' = Builtin alias (lit "pest" :: q')).
      { eapply (nodup_map import_alias); [eapply nodup_app_l, Nd|exact I|exact I'|reflexivity]. }
      discriminate.
    + assert (X : File alias g' = File alias g1).
      { eapply (nodup_map import_alias); [eapply nodup_app_l, Nd|exact I|exact I'|reflexivity]. }
      injection X as <-. eapply IH; [|eassumption]. inversion Cp. eauto.
Qed.
Lemma complete_unique : forall unicode g, complete unicode g -> forall p x y, names unicode g p x -> names unicode g p y -> x = y.
Proof.
  intros unicode g Cp p x y N N'. destruct N as [p B|p x O N]; inversion N' as [p' B' Ep|p' y' O' N1 Ep]; subst.
  - reflexivity.
  - exfalso. destruct (N1 p eq_refl) as (X & _). exact (X B).
  - exfalso. destruct (N _ eq_refl) as (X & _). exact (X B').
  - eapply own_unique'; eassumption.
Qed.
