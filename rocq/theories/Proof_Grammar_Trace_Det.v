(** Whatever a grammar does with a text, it tries the same rules. *)
From Coq Require Import String List NArith ZArith Arith Bool Lia.
From Verif Require Import Proof_Complete Proof_Leaf Proof_Accepted Proof_Accept Proof_Det Proof_Terminate Proof_Grammar_Terminate Model_Text Model_Message Model_Meta Model_Import Model_Tracker Model_Node Model_Pairs
  Spec_Text Spec_Peg Spec_Run Spec_Grammar_Peg Spec_Occur Spec_Generator Spec_Grammar_Tree Spec_Grammar_Trace.
Import ListNotations.
Open Scope list_scope.

Section Det.
Variable unicode : list text.
Variable property : N -> char -> bool.
Variable open : gmodule -> parse_rule -> Prop.
Hypothesis Distinct : distinct_properties unicode.
Notation gpeg := (gpeg unicode property).
Notation gpeg_items := (gpeg_items unicode property).
Notation gpeg_rounds := (gpeg_rounds unicode property).
Notation gpeg_round := (gpeg_round unicode property).
Notation gtry := (gtry unicode property open).
Notation gtry_items := (gtry_items unicode property open).
Notation gtry_rounds := (gtry_rounds unicode property open).
Notation gtry_round := (gtry_round unicode property open).

(** The result is that of the grammar. *)
Theorem gtry_gpeg :
  (forall chain pol g rho e pre post K r tr, gtry chain pol g rho e pre post K r tr -> gpeg g rho e pre post K r) /\
  (forall chain pol g rho l pre post K r tr, gtry_items chain pol g rho l pre post K r tr -> gpeg_items g rho l pre post K r) /\
  (forall chain pol g rho e t min max i pre post K r tr, gtry_rounds chain pol g rho e t min max i pre post K r tr -> gpeg_rounds g rho e t min max i pre post K r) /\
  (forall chain pol g rho e t i pre post K r tr, gtry_round chain pol g rho e t i pre post K r tr -> gpeg_round g rho e t i pre post K r).
Proof.
  apply (gtry_mutind unicode property open
    (fun chain pol g rho e pre post K r tr _ => gpeg g rho e pre post K r)
    (fun chain pol g rho l pre post K r tr _ => gpeg_items g rho l pre post K r)
    (fun chain pol g rho e t min max i pre post K r tr _ => gpeg_rounds g rho e t min max i pre post K r)
    (fun chain pol g rho e t i pre post K r tr _ => gpeg_round g rho e t i pre post K r)); intros; try assumption.
  - eapply G_param; eassumption.
  - eapply G_rule; eassumption.
  - eapply G_rule; eassumption.
  - apply G_push_ok; assumption.
  - apply G_push_fail; assumption.
  - eapply G_positive_ok; eassumption.
  - eapply G_positive_fail; eassumption.
  - eapply G_negative_ok; eassumption.
  - eapply G_negative_fail; eassumption.
  - apply G_seq. assumption.
  - apply G_choice_left. assumption.
  - apply G_choice_right; assumption.
  - apply G_opt_some. assumption.
  - apply G_opt_none. assumption.
  - eapply G_repeat; eassumption.
  - apply G_separated. assumption.
  - constructor.
  - eapply GI_expr; eassumption.
  - eapply GI_expr_fail; eassumption.
  - apply GI_none. assumption.
  - eapply GI_trivia; eassumption.
  - eapply GI_trivia_fail; eassumption.
  - apply GR_max. assumption.
  - eapply GR_round; eassumption.
  - apply GR_stop; assumption.
  - apply GR_fail; assumption.
  - apply GR_first. assumption.
  - apply GR_later; assumption.
Qed.

Lemma takes_top_dec : forall q, takes_top q \/ ~ takes_top q.
Proof.
  intro q. unfold takes_top.
  destruct (list_eq_dec (list_eq_dec N.eq_dec) q [lit "stack"; lit "peek"]); [tauto|].
  destruct (list_eq_dec (list_eq_dec N.eq_dec) q [lit "stack"; lit "pop"]); [tauto|].
  destruct (list_eq_dec (list_eq_dec N.eq_dec) q [lit "stack"; lit "drop"]); tauto.
Qed.

(** Every result has its attempts. *)
Theorem gpeg_gtry : (forall h q, open h q \/ ~ open h q) ->
  (forall g rho e pre post K r, gpeg g rho e pre post K r -> forall chain pol, exists tr, gtry chain pol g rho e pre post K r tr) /\
  (forall g rho l pre post K r, gpeg_items g rho l pre post K r -> forall chain pol, exists tr, gtry_items chain pol g rho l pre post K r tr) /\
  (forall g rho e t min max i pre post K r, gpeg_rounds g rho e t min max i pre post K r -> forall chain pol, exists tr, gtry_rounds chain pol g rho e t min max i pre post K r tr) /\
  (forall g rho e t i pre post K r, gpeg_round g rho e t i pre post K r -> forall chain pol, exists tr, gtry_round chain pol g rho e t i pre post K r tr).
Proof.
  intro Open.
  apply (gpeg_mutind unicode property
    (fun g rho e pre post K r _ => forall chain pol, exists tr, gtry chain pol g rho e pre post K r tr)
    (fun g rho l pre post K r _ => forall chain pol, exists tr, gtry_items chain pol g rho l pre post K r tr)
    (fun g rho e t min max i pre post K r _ => forall chain pol, exists tr, gtry_rounds chain pol g rho e t min max i pre post K r tr)
    (fun g rho e t i pre post K r _ => forall chain pol, exists tr, gtry_round chain pol g rho e t i pre post K r tr)); intros.
  - exists []. apply GA_text; [eauto|]. apply G_str. assumption.
  - exists []. apply GA_text; [eauto|]. apply G_insens. assumption.
  - exists []. apply GA_text; [eauto 6|]. apply G_range. assumption.
  - destruct (H chain pol) as (tr & T). eexists. eapply GA_param; eassumption.
  - destruct (Open g' r') as [O|O].
    + destruct (H chain pol) as (tr & T). eexists. eapply GA_open; eassumption.
    + destruct (H (((g', r'), blen pre) :: chain) pol) as (tr & T). eexists. eapply GA_rule; eassumption.
  - assert (Ns : forall range, args <> Some (PSlice range)) by (intros range E; subst; match goal with O : _ \/ _ /\ _ |- _ => destruct O as [O|(O & _)]; discriminate O end).
    assert (G : gpeg g rho (PPath path args) pre post K r) by (eapply G_builtin; eassumption).
    destruct (takes_top_dec q) as [Tt|Nt]; [destruct K as [|x K]; [eexists; eapply GA_empty; eassumption|]|]; exists []; (eapply GA_builtin; [eassumption|eassumption| |exact Ns| |exact G]).
    + destruct Tt as [->|[->| ->]]; discriminate.
    + intros (_ & E). discriminate E.
    + intros ->. match goal with B : gpeg_builtin _ _ _ _ _ _ _ |- _ => inversion B end.
    + tauto.
  - assert (G : gpeg g rho (PPath path (Some (PSlice range))) pre post K r) by (eapply G_slice; eassumption).
    destruct (in_bounds range (length K)) eqn:B; eexists; [eapply GA_slice; eassumption|eapply GA_bounds; eassumption].
  - destruct (H chain pol) as (tr & T). eexists. eapply GA_push_ok; eassumption.
  - destruct (H chain pol) as (tr & T). eexists. eapply GA_push_fail; eassumption.
  - destruct (H chain true) as (tr & T). eexists. eapply GA_positive_ok; eassumption.
  - destruct (H chain true) as (tr & T). eexists. eapply GA_positive_fail; eassumption.
  - destruct (H chain false) as (tr & T). eexists. eapply GA_negative_ok; eassumption.
  - destruct (H chain false) as (tr & T). eexists. eapply GA_negative_fail; eassumption.
  - destruct (H chain pol) as (tr & T). eexists. eapply GA_seq; eassumption.
  - destruct (H chain pol) as (tr & T). eexists. eapply GA_left; eassumption.
  - destruct (H chain pol) as (tr & T), (H0 chain pol) as (tr' & T'). eexists. eapply GA_right; eassumption.
  - destruct (H chain pol) as (tr & T). eexists. eapply GA_some; eassumption.
  - destruct (H chain pol) as (tr & T). eexists. eapply GA_none; eassumption.
  - destruct (H chain pol) as (tr & T). eexists. eapply GA_repeat; eassumption.
  - destruct (H chain pol) as (tr & T). eexists. eapply GA_separated; eassumption.
  - eexists. constructor.
  - destruct (H chain pol) as (tr & T), (H0 chain pol) as (tr' & T'). eexists. eapply GAI_expr; eassumption.
  - destruct (H chain pol) as (tr & T). eexists. eapply GAI_expr_fail; eassumption.
  - destruct (H chain pol) as (tr & T). eexists. eapply GAI_none; eassumption.
  - destruct (H chain pol) as (tr & T), (H0 chain pol) as (tr' & T'). eexists. eapply GAI_trivia; eassumption.
  - destruct (H chain pol) as (tr & T). eexists. eapply GAI_trivia_fail; eassumption.
  - eexists. apply GAR_max. assumption.
  - destruct (H chain pol) as (tr & T), (H0 chain pol) as (tr' & T'). eexists. eapply GAR_round; eassumption.
  - destruct (H chain pol) as (tr & T). eexists. apply GAR_stop; eassumption.
  - destruct (H chain pol) as (tr & T). eexists. apply GAR_fail; eassumption.
  - destruct (H chain pol) as (tr & T). eexists. apply GAR_first. eassumption.
  - destruct (H chain pol) as (tr & T). eexists. apply GAR_later; eassumption.
Qed.

Ltac args := match goal with
  | A : call_arguments ?x ?l, B : call_arguments ?x ?l' |- _ =>
      assert (l = l') by (destruct A as [->|(-> & ->)], B as [?|(? & ->)]; congruence); subst end.
Ltac name_det := match goal with
  | C : complete _ ?g, A : names _ ?g ?p ?x, B : names _ ?g ?p ?y |- _ =>
      let E := fresh "E" in assert (E := complete_unique _ _ C _ _ _ A B); try discriminate E; try (injection E; clear B; intros); subst end.
Ltac shadow := match goal with
  | N : (forall x c, [?y] = [x] -> ~ assoc x ?rho c), A : assoc ?y ?rho ?c |- _ => destruct (N y c eq_refl A)
  end.
Ltac no_rep := match goal with H : repetition ?e _ _ _ |- _ =>
  let Q := fresh in solve [destruct H as [(Q & _)|[(Q & _)|(? & Q & _)]]; discriminate Q] end.
Ltac no_text := match goal with X : (exists s, _) \/ _ |- _ => solve [destruct X as [(? & X)|[(? & X)|(? & ? & X)]]; discriminate X] end.
Ltac no_slice := match goal with X : forall range, Some (PSlice ?r) <> Some (PSlice range) |- _ => destruct (X r eq_refl) end.
Ltac no_top := match goal with X : takes_top [lit "stack"; lit "push"] |- _ => solve [destruct X as [X|[X|X]]; discriminate X] end.
Ltac no_push := match goal with X : ?q <> ?q |- _ => destruct (X eq_refl) end.
Ltac others := try no_rep; try no_text; try shadow; try name_det; try no_slice; try no_top; try no_push; try congruence; try tauto.

Theorem gtry_unique :
  (forall chain pol g rho e pre post K r tr, gtry chain pol g rho e pre post K r tr -> complete unicode g -> good_env unicode rho ->
     forall r' tr', gtry chain pol g rho e pre post K r' tr' -> r' = r /\ tr' = tr) /\
  (forall chain pol g rho l pre post K r tr, gtry_items chain pol g rho l pre post K r tr -> complete unicode g -> good_env unicode rho ->
     forall r' tr', gtry_items chain pol g rho l pre post K r' tr' -> r' = r /\ tr' = tr) /\
  (forall chain pol g rho e t min max i pre post K r tr, gtry_rounds chain pol g rho e t min max i pre post K r tr -> complete unicode g -> good_env unicode rho ->
     forall r' tr', gtry_rounds chain pol g rho e t min max i pre post K r' tr' -> r' = r /\ tr' = tr) /\
  (forall chain pol g rho e t i pre post K r tr, gtry_round chain pol g rho e t i pre post K r tr -> complete unicode g -> good_env unicode rho ->
     forall r' tr', gtry_round chain pol g rho e t i pre post K r' tr' -> r' = r /\ tr' = tr).
Proof.
  assert (One : forall g rho e pre post K r r', complete unicode g -> good_env unicode rho -> gpeg g rho e pre post K r -> gpeg g rho e pre post K r' -> r' = r)
    by (intros; symmetry; eapply (proj1 (gpeg_unique unicode property Distinct)); eassumption).
  assert (T1 := proj1 gtry_gpeg).
  apply (gtry_mutind unicode property open
    (fun chain pol g rho e pre post K r tr _ => complete unicode g -> good_env unicode rho ->
       forall r' tr', gtry chain pol g rho e pre post K r' tr' -> r' = r /\ tr' = tr)
    (fun chain pol g rho l pre post K r tr _ => complete unicode g -> good_env unicode rho ->
       forall r' tr', gtry_items chain pol g rho l pre post K r' tr' -> r' = r /\ tr' = tr)
    (fun chain pol g rho e t min max i pre post K r tr _ => complete unicode g -> good_env unicode rho ->
       forall r' tr', gtry_rounds chain pol g rho e t min max i pre post K r' tr' -> r' = r /\ tr' = tr)
    (fun chain pol g rho e t i pre post K r tr _ => complete unicode g -> good_env unicode rho ->
       forall r' tr', gtry_round chain pol g rho e t i pre post K r' tr' -> r' = r /\ tr' = tr)).
  - (* text *) intros chain pol g rho e pre post K r Te H C E r' tr' T. split; [eapply One; [exact C|exact E|exact H|eapply T1, T]|].
    destruct Te as [(x & ->)|[(x & ->)|(x & y & ->)]]; inversion T; subst; others; reflexivity.
  - (* built-in *) intros chain pol g rho path args q pre post K r Np Nm Nq Ns Nt H C E r' tr' T. split; [eapply One; [exact C|exact E|exact H|eapply T1, T]|].
    inversion T; subst; others; reflexivity.
  - (* empty stack *) intros chain pol g rho path args q pre post r Np Nm Ns Tt H C E r' tr' T. split; [eapply One; [exact C|exact E|exact H|eapply T1, T]|].
    inversion T; subst; others; reflexivity.
  - (* slice *) intros chain pol g rho path range q pre post K r Np Nm B H C E r' tr' T. split; [eapply One; [exact C|exact E|exact H|eapply T1, T]|].
    inversion T; subst; others; try reflexivity.
  - (* bounds *) intros chain pol g rho path range q pre post K r Np Nm B H C E r' tr' T. split; [eapply One; [exact C|exact E|exact H|eapply T1, T]|].
    inversion T; subst; others; try reflexivity.
  - (* parameter *) intros chain pol g rho x args g' rho' e pre post K r tr A H IH C E r' tr' T. inversion T; subst; others.
    match goal with B : assoc _ _ _ |- _ => assert (Q := assoc_det _ _ _ _ A B); injection Q as <- <- <- end.
    destruct (good_assoc _ _ _ _ _ _ E A). eapply IH; eassumption.
  - (* rule *) intros chain pol g rho path args l g' q pre post K r tr Np Nm Ca Le No H IH C E r' tr' T. inversion T; subst; others.
    args. match goal with T' : gtry _ _ _ _ (n_expr (pr_node _)) _ _ _ _ _ |- _ => destruct (IH ltac:(eapply names_complete; eassumption) ltac:(apply good_call; assumption) _ _ T') as (-> & ->) end. auto.
  - (* open rule *) intros chain pol g rho path args l g' q pre post K r tr Np Nm Ca Le No H IH C E r' tr' T. inversion T; subst; others.
    args. match goal with T' : gtry _ _ _ _ (n_expr (pr_node _)) _ _ _ _ _ |- _ => destruct (IH ltac:(eapply names_complete; eassumption) ltac:(apply good_call; assumption) _ _ T') as (-> & ->) end. auto.
  - (* push *) intros chain pol g rho path n pre post K m post' K' tr Np Nm H IH C E r' tr' T. inversion T; subst; others;
      match goal with T' : gtry _ _ _ _ (n_expr n) _ _ _ _ _ |- _ => destruct (IH C E _ _ T') as (Ea & ->) end; try discriminate Ea.
    injection Ea as Ea -> ->. apply app_inv_head in Ea. subst. auto.
  - intros chain pol g rho path n pre post K tr Np Nm H IH C E r' tr' T. inversion T; subst; others;
      match goal with T' : gtry _ _ _ _ (n_expr n) _ _ _ _ _ |- _ => destruct (IH C E _ _ T') as (Ea & ->) end; try discriminate Ea. auto.
  - (* predicates *) intros chain pol g rho n pre post K pre' post' K' tr H IH C E r' tr' T. inversion T; subst; others;
      match goal with T' : gtry _ _ _ _ (n_expr n) _ _ _ _ _ |- _ => destruct (IH C E _ _ T') as (Ea & ->) end; try discriminate Ea. auto.
  - intros chain pol g rho n pre post K tr H IH C E r' tr' T. inversion T; subst; others;
      match goal with T' : gtry _ _ _ _ (n_expr n) _ _ _ _ _ |- _ => destruct (IH C E _ _ T') as (Ea & ->) end; try discriminate Ea. auto.
  - intros chain pol g rho n pre post K tr H IH C E r' tr' T. inversion T; subst; others;
      match goal with T' : gtry _ _ _ _ (n_expr n) _ _ _ _ _ |- _ => destruct (IH C E _ _ T') as (Ea & ->) end; try discriminate Ea. auto.
  - intros chain pol g rho n pre post K pre' post' K' tr H IH C E r' tr' T. inversion T; subst; others;
      match goal with T' : gtry _ _ _ _ (n_expr n) _ _ _ _ _ |- _ => destruct (IH C E _ _ T') as (Ea & ->) end; try discriminate Ea. auto.
  - (* sequence *) intros chain pol g rho l r t pre post K res tr H IH C E r' tr' T. inversion T; subst; others. eapply IH; eassumption.
  - (* choice *) intros chain pol g rho l r pre post K pre' post' K' tr H IH C E r' tr' T. inversion T; subst; others.
    + eapply IH; eassumption.
    + match goal with T' : gtry _ _ _ _ (n_expr l) _ _ _ _ _ |- _ => destruct (IH C E _ _ T') as (Ea & ->) end. discriminate Ea.
  - intros chain pol g rho l r pre post K res tr tr1 H IH H' IH' C E r' tr' T. inversion T; subst; others;
      match goal with T' : gtry _ _ _ _ (n_expr l) _ _ _ _ _ |- _ => destruct (IH C E _ _ T') as (Ea & ->) end; try discriminate Ea.
    match goal with T' : gtry _ _ _ _ (n_expr r) _ _ _ _ _ |- _ => destruct (IH' C E _ _ T') as (-> & ->) end. auto.
  - (* option *) intros chain pol g rho n pre post K pre' post' K' tr H IH C E r' tr' T. inversion T; subst; others;
      match goal with T' : gtry _ _ _ _ (n_expr n) _ _ _ _ _ |- _ => destruct (IH C E _ _ T') as (Ea & ->) end; try discriminate Ea. auto.
  - intros chain pol g rho n pre post K tr H IH C E r' tr' T. inversion T; subst; others;
      match goal with T' : gtry _ _ _ _ (n_expr n) _ _ _ _ _ |- _ => destruct (IH C E _ _ T') as (Ea & ->) end; try discriminate Ea. auto.
  - (* repetition *) intros chain pol g rho e n min max t pre post K r tr Re Rt H IH C E r' tr' T. inversion T; subst; try no_rep.
    1: match goal with X : (exists s, _) \/ _ |- _ => destruct X as [(? & X)|[(? & X)|(? & ? & X)]]; subst; no_rep end.
    match goal with A : repetition ?x n min max, B : repetition ?x _ _ _ |- _ => destruct (repetition_det _ _ _ _ _ _ _ A B) as (<- & <- & <-) end.
    match goal with A : round_trivia (n_expr n) t, B : round_trivia (n_expr n) _ |- _ => destruct (round_trivia_det _ _ _ A B) end.
    eapply IH; eassumption.
  - (* separated *) intros chain pol g rho n t pre post K r tr H IH C E r' tr' T. inversion T; subst; others. eapply IH; eassumption.
  - (* items *) intros chain pol g rho pre post K C E r' tr' T. inversion T; subst. auto.
  - intros chain pol g rho e l pre post K pre' post' K' r tr tr1 H IH H' IH' C E r' tr' T. inversion T; subst;
      match goal with A : gtry _ _ _ _ e _ _ _ _ _ |- _ => destruct (IH C E _ _ A) as (Ea & ->) end; try discriminate Ea.
    injection Ea as -> -> ->. match goal with A : gtry_items _ _ _ _ l _ _ _ _ _ |- _ => destruct (IH' C E _ _ A) as (-> & ->) end. auto.
  - intros chain pol g rho e l pre post K tr H IH C E r' tr' T. inversion T; subst;
      match goal with A : gtry _ _ _ _ e _ _ _ _ _ |- _ => destruct (IH C E _ _ A) as (Ea & ->) end; try discriminate Ea. auto.
  - intros chain pol g rho l pre post K r tr H IH C E r' tr' T. inversion T; subst; try discriminate. eapply IH; eassumption.
  - intros chain pol g rho t name q l pre post K pre' post' K' r tr tr1 Tn La H IH H' IH' C E r' tr' T. inversion T; subst; try discriminate;
      match goal with B : trivia_name t = Some ?y |- _ => assert (name = y) by congruence; subst end;
      match goal with A : last_rule ?g ?x ?r, B : last_rule ?g ?x ?r' |- _ => assert (r = r') by (eapply last_det; eassumption); subst end;
      match goal with A : gtry _ _ _ [] (n_expr (pr_node _)) _ _ _ _ _ |- _ => destruct (IH C (GE_nil unicode) _ _ ltac:(eassumption)) as (Ea & ->) end; try discriminate Ea.
    injection Ea as -> -> ->. match goal with A : gtry_items _ _ _ _ l _ _ _ _ _ |- _ => destruct (IH' C E _ _ ltac:(eassumption)) as (-> & ->) end. auto.
  - intros chain pol g rho t name q l pre post K tr Tn La H IH C E r' tr' T. inversion T; subst; try discriminate;
      match goal with B : trivia_name t = Some ?y |- _ => assert (name = y) by congruence; subst end;
      match goal with A : last_rule ?g ?x ?r, B : last_rule ?g ?x ?r' |- _ => assert (r = r') by (eapply last_det; eassumption); subst end;
      match goal with A : gtry _ _ _ [] (n_expr (pr_node _)) _ _ _ _ _ |- _ => destruct (IH C (GE_nil unicode) _ _ ltac:(eassumption)) as (Ea & ->) end; try discriminate Ea. auto.
  - (* rounds *) intros chain pol g rho e t min max i pre post K L C E r' tr' T. inversion T; subst; try lia. auto.
  - intros chain pol g rho e t min max i pre post K pre' post' K' r tr tr1 L H IH H' IH' C E r' tr' T. inversion T; subst; try lia;
      match goal with A : gtry_round _ _ _ _ _ _ _ _ _ _ _ _ |- _ => destruct (IH C E _ _ ltac:(eassumption)) as (Ea & ->) end; try discriminate Ea.
    injection Ea as -> -> ->. destruct (IH' C E _ _ ltac:(eassumption)) as (-> & ->). auto.
  - intros chain pol g rho e t min max i pre post K tr L L' H IH C E r' tr' T. inversion T; subst; try lia;
      match goal with A : gtry_round _ _ _ _ _ _ _ _ _ _ _ _ |- _ => destruct (IH C E _ _ ltac:(eassumption)) as (Ea & ->) end; try discriminate Ea. auto.
  - intros chain pol g rho e t min max i pre post K tr L L' H IH C E r' tr' T. inversion T; subst; try lia;
      match goal with A : gtry_round _ _ _ _ _ _ _ _ _ _ _ _ |- _ => destruct (IH C E _ _ ltac:(eassumption)) as (Ea & ->) end; try discriminate Ea. auto.
  - intros chain pol g rho e t pre post K r tr H IH C E r' tr' T. inversion T; subst; [eapply IH; eassumption|lia].
  - intros chain pol g rho e t i pre post K r tr L H IH C E r' tr' T. inversion T; subst; [lia|]. eapply IH; eassumption.
Qed.
End Det.
