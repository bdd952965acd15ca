(** Proofs that regular grammar files consist of items that are read as intended. *)
From Coq Require Import String List NArith ZArith Arith Bool.
From Verif Require Import Model_Text Model_Meta Model_Import Model_Pest2 Spec_Grammar Spec_Import Spec_Pest2
  Proof_Pest2 Proof_Syntax Proof_Placed.
Import ListNotations.
Open Scope list_scope.

Lemma tame_in : forall p q, tame p -> In q (pp_inner p) -> tame q.
Proof. intros p q H I. destruct H as [p _ _ F]. rewrite Forall_forall in F. apply F, I. Qed.
Lemma body_in : forall l silent e, rule_body l silent e -> In e l.
Proof. intros l silent e H. induction H as [e E|o e c _ _ _|m l e _ _ IH]; [left; reflexivity|right; left; reflexivity|right; exact IH]. Qed.
Lemma args_none : forall l, syn_args l -> (forall q, In q l -> pp_rule q <> R_call /\ pp_rule q <> R_slice) -> l = [].
Proof.
  intros l H N. destruct H as [|s a b o l c _ _ _|s a b o l c x y _ _ _]; [reflexivity| |].
  - destruct (N _ (or_introl eq_refl)) as (A & _). destruct A. reflexivity.
  - destruct (N _ (or_introl eq_refl)) as (_ & A). destruct A. reflexivity.
Qed.
Lemma regular_item : forall p, any_item p -> regular p -> syn_item p.
Proof.
  intros p H (T & W). destruct H as [p ds name ns silent e R E|p U|p d D|p E].
  - eapply Syn_rule; [exact R|exact E|]. destruct R as [s a b docs ds name args ns asg body silent e D N A G I B].
    eapply tame_in; [exact T|]. cbn [pp_inner]. apply in_or_app. right. right. apply in_or_app. right. right. eapply body_in, B.
  - destruct U as [s a b sp ap bp l names args fs file als alias S N A F L].
    assert (args = []) as ->.
    { apply args_none; [exact A|]. intros q I. apply (W eq_refl _ _ q eq_refl). cbn [pp_inner]. apply in_or_app. right. exact I. }
    rewrite app_nil_r. eapply Syn_import. econstructor; eassumption.
  - eapply Syn_doc, D.
  - apply Syn_eoi, E.
Qed.
Lemma answer_items : forall (o : qresult) (n : N) ps,
  match o with Ret (Some (_, pairs)) => inl pairs | _ => inr n end = inl ps -> exists s, o = Ret (Some (s, ps)).
Proof. intros [[(s, l)|]| |] n ps H; try discriminate. injection H as ->. exists s. reflexivity. Qed.
Lemma text_items : forall report input ps, parse_text report input = inl ps ->
  exists s, qparse (enough input) (Silent S_grammar_rules) input = Ret (Some (s, ps)).
Proof. intros report input ps. exact (answer_items _ (report input) ps). Qed.

(** Deciding whether files are regular. *)
Definition own_tame (p : ppair) : bool :=
  match pp_rule p with
  | R_character => negb (text_eqb (pp_str p) [39; 34; 39]%N)
  | R_raw_string => forallb (fun q => match pp_rule q with R_pound => false | _ => true end) (pp_inner p)
  | _ => true
  end.
Fixpoint is_tame (p : ppair) : bool :=
  own_tame p && (fix all (l : list ppair) := match l with [] => true | q :: r => is_tame q && all r end) (pp_inner p).
Definition has_no_args (p : ppair) : bool :=
  match pp_rule p, pp_inner p with
  | R_import, path :: _ => forallb (fun q => match pp_rule q with R_call | R_slice => false | _ => true end) (pp_inner path)
  | _, _ => true
  end.
Lemma own_tame_spec : forall p, own_tame p = true ->
  (pp_rule p = R_character -> pp_str p <> [39; 34; 39]%N) /\
  (pp_rule p = R_raw_string -> Forall (fun q => pp_rule q <> R_pound) (pp_inner p)).
Proof.
  intros p H. unfold own_tame in H. split; intro E; rewrite E in H.
  - intro X. rewrite X in H. vm_compute in H. discriminate.
  - rewrite forallb_forall in H. apply Forall_forall. intros q I X. specialize (H q I). rewrite X in H. discriminate.
Qed.
Lemma is_tame_spec : forall p, is_tame p = true -> tame p.
Proof.
  fix IH 1. intros [r u a b l] H. cbn [is_tame pp_inner] in H. apply andb_prop in H as (O & A).
  apply own_tame_spec in O as (O1 & O2). constructor; [exact O1|exact O2|]. cbn [pp_inner].
  clear O1 O2. induction l as [|q l IHl]; [constructor|]. apply andb_prop in A as (A1 & A2). constructor; [apply IH, A1|apply IHl, A2].
Qed.
Lemma regular_spec : forall p, is_tame p && has_no_args p = true -> regular p.
Proof.
  intros p H. apply andb_prop in H as (T & N). split; [apply is_tame_spec, T|]. intros E path rest q I Q. unfold has_no_args in N.
  rewrite E, I in N. rewrite forallb_forall in N. specialize (N q Q). split; intro X; rewrite X in N; discriminate.
Qed.
Lemma regular_all : forall l, forallb (fun p => is_tame p && has_no_args p) l = true -> Forall regular l.
Proof. intros l H. rewrite forallb_forall in H. apply Forall_forall. intros p I. apply regular_spec, H, I. Qed.
