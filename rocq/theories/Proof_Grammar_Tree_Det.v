(** In a complete grammar an expression that matches has exactly one tree. *)
From Coq Require Import String List NArith ZArith Arith Bool Lia.
From Verif Require Import Proof_Complete Proof_Leaf Proof_Accepted Proof_Accept Proof_Det Proof_Terminate Proof_Grammar_Terminate Model_Text Model_Message Model_Meta Model_Import Model_Node Model_Pairs
  Spec_Text Spec_Peg Spec_Grammar_Peg Spec_Occur Spec_Generator Spec_Grammar_Tree.
Import ListNotations.
Open Scope list_scope.

Section Det.
Variable unicode : list text.
Variable property : N -> char -> bool.
Variable open : gmodule -> parse_rule -> Prop.
Hypothesis Distinct : distinct_properties unicode.
Notation gpeg := (gpeg unicode property).
Notation gpeg_items := (gpeg_items unicode property).
Notation gpeg_rounds := (gpeg_rounds unicode property).
Notation gpeg_round := (gpeg_round unicode property).
Notation gtree := (gtree unicode property open).
Notation gtree_items := (gtree_items unicode property open).
Notation gtree_rounds := (gtree_rounds unicode property open).
Notation gtree_round := (gtree_round unicode property open).

(** Trees belong to matches. *)
Theorem gtree_gpeg :
  (forall g rho e pre post K pre' post' K' ps, gtree g rho e pre post K pre' post' K' ps -> gpeg g rho e pre post K (Ok pre' post' K')) /\
  (forall g rho l pre post K pre' post' K' ps, gtree_items g rho l pre post K pre' post' K' ps -> gpeg_items g rho l pre post K (Ok pre' post' K')) /\
  (forall g rho e t min max i pre post K pre' post' K' ps, gtree_rounds g rho e t min max i pre post K pre' post' K' ps ->
     gpeg_rounds g rho e t min max i pre post K (Ok pre' post' K')) /\
  (forall g rho e t i pre post K pre' post' K' ps, gtree_round g rho e t i pre post K pre' post' K' ps -> gpeg_round g rho e t i pre post K (Ok pre' post' K')).
Proof.
  apply (gtree_mutind unicode property open
    (fun g rho e pre post K pre' post' K' ps _ => gpeg g rho e pre post K (Ok pre' post' K'))
    (fun g rho l pre post K pre' post' K' ps _ => gpeg_items g rho l pre post K (Ok pre' post' K'))
    (fun g rho e t min max i pre post K pre' post' K' ps _ => gpeg_rounds g rho e t min max i pre post K (Ok pre' post' K'))
    (fun g rho e t i pre post K pre' post' K' ps _ => gpeg_round g rho e t i pre post K (Ok pre' post' K'))); intros; try assumption.
  - eapply G_param; eassumption.
  - eapply G_rule; eassumption.
  - eapply G_rule; eassumption.
  - eapply G_rule; eassumption.
  - apply G_push_ok; assumption.
  - apply G_seq. assumption.
  - apply G_choice_left. assumption.
  - apply G_choice_right; assumption.
  - apply G_opt_some. assumption.
  - apply G_opt_none. assumption.
  - eapply G_repeat; eassumption.
  - apply G_separated. assumption.
  - constructor.
  - eapply GI_expr; eassumption.
  - apply GI_none. assumption.
  - eapply GI_trivia; eassumption.
  - apply GR_max. assumption.
  - eapply GR_round; eassumption.
  - apply GR_stop; assumption.
  - apply GR_first. assumption.
  - apply GR_later; assumption.
Qed.

(** Matches have trees. *)
Theorem gpeg_gtree : (forall h q, open h q \/ ~ open h q) ->
  (forall g rho e pre post K r, gpeg g rho e pre post K r -> forall pre' post' K', r = Ok pre' post' K' -> exists ps, gtree g rho e pre post K pre' post' K' ps) /\
  (forall g rho l pre post K r, gpeg_items g rho l pre post K r -> forall pre' post' K', r = Ok pre' post' K' -> exists ps, gtree_items g rho l pre post K pre' post' K' ps) /\
  (forall g rho e t min max i pre post K r, gpeg_rounds g rho e t min max i pre post K r -> forall pre' post' K', r = Ok pre' post' K' ->
     exists ps, gtree_rounds g rho e t min max i pre post K pre' post' K' ps) /\
  (forall g rho e t i pre post K r, gpeg_round g rho e t i pre post K r -> forall pre' post' K', r = Ok pre' post' K' ->
     exists ps, gtree_round g rho e t i pre post K pre' post' K' ps).
Proof.
  intro Decided. apply (gpeg_mutind unicode property
    (fun g rho e pre post K r _ => forall pre' post' K', r = Ok pre' post' K' -> exists ps, gtree g rho e pre post K pre' post' K' ps)
    (fun g rho l pre post K r _ => forall pre' post' K', r = Ok pre' post' K' -> exists ps, gtree_items g rho l pre post K pre' post' K' ps)
    (fun g rho e t min max i pre post K r _ => forall pre' post' K', r = Ok pre' post' K' -> exists ps, gtree_rounds g rho e t min max i pre post K pre' post' K' ps)
    (fun g rho e t i pre post K r _ => forall pre' post' K', r = Ok pre' post' K' -> exists ps, gtree_round g rho e t i pre post K pre' post' K' ps)); intros; subst; try discriminate;
    try (match goal with E : Ok _ _ _ = Ok _ _ _ |- _ => injection E; intros; subst end);
    repeat match goal with IH : forall a b c, Ok ?x ?y ?z = Ok a b c -> _ |- _ => destruct (IH _ _ _ eq_refl); clear IH end.
  - exists []. apply GT_text; [eauto|]. apply G_str. assumption.
  - exists []. apply GT_text; [eauto|]. apply G_insens. assumption.
  - exists []. apply GT_text; [eauto 6|]. apply G_range. assumption.
  - eexists. eapply GT_param; eassumption.
  - destruct (pr_silent r') eqn:S.
    + destruct (Decided g' r'); [eexists; eapply GT_open; eassumption|]. exists []. eapply GT_silent; eassumption.
    + eexists. eapply GT_rule; eassumption.
  - exists []. eapply GT_builtin; [eassumption|eassumption| |eapply G_builtin; eassumption].
    intros ->. match goal with B : gpeg_builtin _ _ _ _ _ _ _ |- _ => inversion B end.
  - exists []. eapply GT_builtin; [eassumption|eassumption|discriminate|eapply G_slice; eassumption].
  - eexists. eapply GT_push; eassumption.
  - exists []. apply GT_predicate; [eauto|]. eapply G_positive_ok; eassumption.
  - exists []. apply GT_predicate; [eauto|]. eapply G_negative_ok; eassumption.
  - eexists. eapply GT_seq; eassumption.
  - eexists. eapply GT_left; eassumption.
  - eexists. eapply GT_right; eassumption.
  - eexists. eapply GT_some; eassumption.
  - eexists. eapply GT_none; eassumption.
  - eexists. eapply GT_repeat; eassumption.
  - eexists. eapply GT_separated; eassumption.
  - eexists. constructor.
  - eexists. eapply GTI_expr; eassumption.
  - eexists. eapply GTI_none; eassumption.
  - eexists. eapply GTI_trivia; eassumption.
  - eexists. apply GTR_max. assumption.
  - eexists. eapply GTR_round; eassumption.
  - eexists. apply GTR_stop; assumption.
  - eexists. apply GTR_first. eassumption.
  - eexists. apply GTR_later; eassumption.
Qed.

Ltac args := match goal with
  | A : call_arguments ?x ?l, B : call_arguments ?x ?l' |- _ =>
      assert (l = l') by (destruct A as [->|(-> & ->)], B as [?|(? & ->)]; congruence); subst end.
Ltac name_det := match goal with
  | C : complete _ ?g, A : names _ ?g ?p ?x, B : names _ ?g ?p ?y |- _ =>
      let E := fresh "E" in assert (E := complete_unique _ _ C _ _ _ A B); try discriminate E; try (injection E; clear B; intros); subst end.
Ltac shadow := match goal with
  | N : (forall x c, [?y] = [x] -> ~ assoc x ?rho c), A : assoc ?y ?rho ?c |- _ => destruct (N y c eq_refl A)
  end.
Ltac no_rep := match goal with H : repetition ?e _ _ _ |- _ =>
  let Q := fresh in solve [destruct H as [(Q & _)|[(Q & _)|(? & Q & _)]]; discriminate Q] end.

(** Two trees of the same match. *)
Theorem gtree_unique :
  (forall g rho e pre post K pre' post' K' ps, gtree g rho e pre post K pre' post' K' ps -> complete unicode g -> good_env unicode rho ->
     forall a b c qs, gtree g rho e pre post K a b c qs -> a = pre' /\ b = post' /\ c = K' /\ qs = ps) /\
  (forall g rho l pre post K pre' post' K' ps, gtree_items g rho l pre post K pre' post' K' ps -> complete unicode g -> good_env unicode rho ->
     forall a b c qs, gtree_items g rho l pre post K a b c qs -> a = pre' /\ b = post' /\ c = K' /\ qs = ps) /\
  (forall g rho e t min max i pre post K pre' post' K' ps, gtree_rounds g rho e t min max i pre post K pre' post' K' ps -> complete unicode g -> good_env unicode rho ->
     forall a b c qs, gtree_rounds g rho e t min max i pre post K a b c qs -> a = pre' /\ b = post' /\ c = K' /\ qs = ps) /\
  (forall g rho e t i pre post K pre' post' K' ps, gtree_round g rho e t i pre post K pre' post' K' ps -> complete unicode g -> good_env unicode rho ->
     forall a b c qs, gtree_round g rho e t i pre post K a b c qs -> a = pre' /\ b = post' /\ c = K' /\ qs = ps).
Proof.
  assert (One : forall g rho e pre post K r r', complete unicode g -> good_env unicode rho -> gpeg g rho e pre post K r -> gpeg g rho e pre post K r' -> r = r')
    by (intros; eapply (proj1 (gpeg_unique unicode property Distinct)); eassumption).
  assert (OneRound : forall g rho e t i pre post K r r', complete unicode g -> good_env unicode rho -> gpeg_round g rho e t i pre post K r -> gpeg_round g rho e t i pre post K r' -> r = r')
    by (intros; eapply (proj2 (proj2 (proj2 (gpeg_unique unicode property Distinct)))); eassumption).
  assert (T1 := proj1 gtree_gpeg). assert (T4 := proj2 (proj2 (proj2 gtree_gpeg))).
  assert (Both : forall g rho e pre post K a b c a' b' c', complete unicode g -> good_env unicode rho -> gpeg g rho e pre post K (Ok a b c) -> gpeg g rho e pre post K (Ok a' b' c') ->
    a' = a /\ b' = b /\ c' = c).
  { intros g rho e pre post K a b c a' b' c' C E H H'. assert (Q := One _ _ _ _ _ _ _ _ C E H H'). injection Q as -> -> ->. auto. }
  assert (Never : forall g rho e pre post K a b c, complete unicode g -> good_env unicode rho -> gpeg g rho e pre post K (Ok a b c) -> gpeg g rho e pre post K Fail -> False).
  { intros g rho e pre post K a b c C E H H'. assert (Q := One _ _ _ _ _ _ _ _ C E H H'). discriminate Q. }
  apply (gtree_mutind unicode property open
    (fun g rho e pre post K pre' post' K' ps _ => complete unicode g -> good_env unicode rho ->
       forall a b c qs, gtree g rho e pre post K a b c qs -> a = pre' /\ b = post' /\ c = K' /\ qs = ps)
    (fun g rho l pre post K pre' post' K' ps _ => complete unicode g -> good_env unicode rho ->
       forall a b c qs, gtree_items g rho l pre post K a b c qs -> a = pre' /\ b = post' /\ c = K' /\ qs = ps)
    (fun g rho e t min max i pre post K pre' post' K' ps _ => complete unicode g -> good_env unicode rho ->
       forall a b c qs, gtree_rounds g rho e t min max i pre post K a b c qs -> a = pre' /\ b = post' /\ c = K' /\ qs = ps)
    (fun g rho e t i pre post K pre' post' K' ps _ => complete unicode g -> good_env unicode rho ->
       forall a b c qs, gtree_round g rho e t i pre post K a b c qs -> a = pre' /\ b = post' /\ c = K' /\ qs = ps)).
  - (* text *) intros g rho e pre post K pre' post' K' Te H C E a b c qs T.
    destruct (Both _ _ _ _ _ _ _ _ _ _ _ _ C E H (T1 _ _ _ _ _ _ _ _ _ _ T)) as (-> & -> & ->). repeat (split; [reflexivity|]).
    destruct Te as [(x & ->)|[(x & ->)|(x & y & ->)]]; inversion T; subst; try no_rep; reflexivity.
  - (* built-in *) intros g rho path args q pre post K pre' post' K' Np Nm Nq H C E a b c qs T.
    destruct (Both _ _ _ _ _ _ _ _ _ _ _ _ C E H (T1 _ _ _ _ _ _ _ _ _ _ T)) as (-> & -> & ->). repeat (split; [reflexivity|]).
    inversion T; subst; try no_rep; try reflexivity; try shadow; try name_det; congruence.
  - (* predicate *) intros g rho e pre post K pre' post' K' Te H C E a b c qs T.
    destruct (Both _ _ _ _ _ _ _ _ _ _ _ _ C E H (T1 _ _ _ _ _ _ _ _ _ _ T)) as (-> & -> & ->). repeat (split; [reflexivity|]).
    destruct Te as [(x & ->)|(x & ->)]; inversion T; subst; try no_rep; reflexivity.
  - (* parameter *) intros g rho x args g' rho' e pre post K pre' post' K' ps A H IH C E a b c qs T. inversion T; subst; try no_rep; try shadow.
    + match goal with X : (exists s, _) \/ _ |- _ => destruct X as [(? & X)|[(? & X)|(? & ? & X)]]; discriminate X end.
    + match goal with X : (exists s, _) \/ _ |- _ => destruct X as [(? & X)|(? & X)]; discriminate X end.
    + match goal with B : assoc _ _ _, T' : gtree _ _ _ _ _ _ _ _ _ qs |- _ => assert (Q := assoc_det _ _ _ _ A B); injection Q as <- <- <-;
        destruct (good_assoc _ _ _ _ _ _ E A); eapply IH; eassumption end.
  - (* rule *) intros g rho path args l g' r pre post K pre' post' K' ps Np Nm Ca Le Si H IH C E a b c qs T. inversion T; subst; try no_rep; try shadow; try name_det; try congruence.
    + match goal with X : (exists s, _) \/ _ |- _ => destruct X as [(? & X)|[(? & X)|(? & ? & X)]]; discriminate X end.
    + match goal with X : (exists s, _) \/ _ |- _ => destruct X as [(? & X)|(? & X)]; discriminate X end.
    + args. match goal with T' : gtree _ _ (n_expr (pr_node _)) _ _ _ _ _ _ _ |- _ => destruct (IH ltac:(eapply names_complete; eassumption) ltac:(apply good_call; assumption) _ _ _ _ T') as (-> & -> & -> & ->) end. auto.
  - (* silent rule *) intros g rho path args l g' r pre post K pre' post' K' Np Nm Ca Le Si No H C E a b c qs T. inversion T; subst; try no_rep; try shadow; try name_det; try congruence; try contradiction.
    + match goal with X : (exists s, _) \/ _ |- _ => destruct X as [(? & X)|[(? & X)|(? & ? & X)]]; discriminate X end.
    + match goal with X : (exists s, _) \/ _ |- _ => destruct X as [(? & X)|(? & X)]; discriminate X end.
    + args. match goal with T' : gpeg ?h ?rr (n_expr (pr_node ?q)) _ _ _ (Ok a b c) |- _ =>
        assert (Ch : complete unicode h) by (eapply names_complete; eassumption); assert (Eh : good_env unicode rr) by (apply good_call; assumption);
        destruct (Both _ _ _ _ _ _ _ _ _ _ _ _ Ch Eh H T') as (-> & -> & ->) end. auto.
  - (* open rule *) intros g rho path args l g' r pre post K pre' post' K' ps Np Nm Ca Le Si Op H IH C E a b c qs T. inversion T; subst; try no_rep; try shadow; try name_det; try congruence; try contradiction.
    + match goal with X : (exists s, _) \/ _ |- _ => destruct X as [(? & X)|[(? & X)|(? & ? & X)]]; discriminate X end.
    + match goal with X : (exists s, _) \/ _ |- _ => destruct X as [(? & X)|(? & X)]; discriminate X end.
    + args. match goal with T' : gtree _ _ (n_expr (pr_node _)) _ _ _ _ _ _ qs |- _ => exact (IH ltac:(eapply names_complete; eassumption) ltac:(apply good_call; assumption) _ _ _ _ T') end.
  - (* push *) intros g rho path n pre post K m post' K' ps Np Nm H IH C E a b c qs T. inversion T; subst; try no_rep; try shadow; try name_det; try congruence.
    + match goal with X : (exists s, _) \/ _ |- _ => destruct X as [(? & X)|[(? & X)|(? & ? & X)]]; discriminate X end.
    + match goal with X : (exists s, _) \/ _ |- _ => destruct X as [(? & X)|(? & X)]; discriminate X end.
    + match goal with T' : gtree _ _ (n_expr n) _ _ _ _ _ _ _ |- _ => destruct (IH C E _ _ _ _ T') as (Ea & -> & -> & ->) end. apply app_inv_head in Ea. subst. auto.
  - (* sequence *) intros g rho l r t pre post K pre' post' K' ps H IH C E a b c qs T. inversion T; subst; try no_rep.
    + match goal with X : (exists s, _) \/ _ |- _ => destruct X as [(? & X)|[(? & X)|(? & ? & X)]]; discriminate X end.
    + match goal with X : (exists s, _) \/ _ |- _ => destruct X as [(? & X)|(? & X)]; discriminate X end.
    + eapply IH; eassumption.
  - (* left *) intros g rho l r pre post K pre' post' K' ps H IH C E a b c qs T. inversion T; subst; try no_rep.
    + match goal with X : (exists s, _) \/ _ |- _ => destruct X as [(? & X)|[(? & X)|(? & ? & X)]]; discriminate X end.
    + match goal with X : (exists s, _) \/ _ |- _ => destruct X as [(? & X)|(? & X)]; discriminate X end.
    + eapply IH; eassumption.
    + exfalso. eapply Never; [exact C|exact E|eapply T1, H|eassumption].
  - (* right *) intros g rho l r pre post K pre' post' K' ps F H IH C E a b c qs T. inversion T; subst; try no_rep.
    + match goal with X : (exists s, _) \/ _ |- _ => destruct X as [(? & X)|[(? & X)|(? & ? & X)]]; discriminate X end.
    + match goal with X : (exists s, _) \/ _ |- _ => destruct X as [(? & X)|(? & X)]; discriminate X end.
    + exfalso. eapply Never; [exact C|exact E|eapply T1; eassumption|exact F].
    + eapply IH; eassumption.
  - (* some *) intros g rho n pre post K pre' post' K' ps H IH C E a b c qs T. inversion T; subst; try no_rep.
    + match goal with X : (exists s, _) \/ _ |- _ => destruct X as [(? & X)|[(? & X)|(? & ? & X)]]; discriminate X end.
    + match goal with X : (exists s, _) \/ _ |- _ => destruct X as [(? & X)|(? & X)]; discriminate X end.
    + eapply IH; eassumption.
    + exfalso. eapply Never; [exact C|exact E|eapply T1, H|eassumption].
  - (* none *) intros g rho n pre post K F C E a b c qs T. inversion T; subst; try no_rep.
    + match goal with X : (exists s, _) \/ _ |- _ => destruct X as [(? & X)|[(? & X)|(? & ? & X)]]; discriminate X end.
    + match goal with X : (exists s, _) \/ _ |- _ => destruct X as [(? & X)|(? & X)]; discriminate X end.
    + exfalso. eapply Never; [exact C|exact E|eapply T1; eassumption|exact F].
    + auto.
  - (* repetition *) intros g rho e n min max t pre post K pre' post' K' ps Re Rt H IH C E a b c qs T. inversion T; subst; try no_rep.
    1: match goal with X : (exists s, _) \/ _ |- _ => destruct X as [(? & X)|[(? & X)|(? & ? & X)]]; subst; no_rep end.
    1: match goal with X : (exists s, _) \/ _ |- _ => destruct X as [(? & X)|(? & X)]; subst; no_rep end.
    match goal with A : repetition ?x n min max, B : repetition ?x _ _ _ |- _ => destruct (repetition_det _ _ _ _ _ _ _ A B) as (<- & <- & <-) end.
    match goal with A : round_trivia (n_expr n) t, B : round_trivia (n_expr n) _ |- _ => destruct (round_trivia_det _ _ _ A B) end.
    eapply IH; eassumption.
  - (* separated *) intros g rho n t pre post K pre' post' K' ps H IH C E a b c qs T. inversion T; subst; try no_rep.
    + match goal with X : (exists s, _) \/ _ |- _ => destruct X as [(? & X)|[(? & X)|(? & ? & X)]]; discriminate X end.
    + match goal with X : (exists s, _) \/ _ |- _ => destruct X as [(? & X)|(? & X)]; discriminate X end.
    + eapply IH; eassumption.
  - (* items *) intros g rho pre post K C E a b c qs T. inversion T; subst. auto.
  - intros g rho e l pre post K pre1 post1 K1 ps pre' post' K' qs0 H IH H' IH' C E a b c qs T. inversion T; subst.
    match goal with A : gtree _ _ e _ _ _ _ _ _ _ |- _ => destruct (IH C E _ _ _ _ A) as (-> & -> & -> & ->) end.
    match goal with A : gtree_items _ _ _ _ _ _ _ _ _ _ |- _ => destruct (IH' C E _ _ _ _ ltac:(eassumption)) as (-> & -> & -> & ->) end. auto.
  - intros g rho l pre post K pre' post' K' qs0 H IH C E a b c qs T. inversion T; subst; [eapply IH; eassumption|discriminate].
  - intros g rho t name r l pre post K pre1 post1 K1 pre' post' K' qs0 Tn La H H' IH C E a b c qs T. inversion T; subst; [discriminate|].
    match goal with B : trivia_name t = Some ?y |- _ => assert (name = y) by congruence; subst end.
    match goal with A : last_rule ?g ?x ?r, B : last_rule ?g ?x ?r' |- _ => assert (r = r') by (eapply last_det; eassumption); subst end.
    match goal with A : gpeg _ _ _ _ _ _ _ |- _ => destruct (Both _ _ _ _ _ _ _ _ _ _ _ _ C (GE_nil unicode) H ltac:(eassumption)) as (-> & -> & ->) end. eapply IH; eassumption.
  - (* rounds *) intros g rho e t min max i pre post K L C E a b c qs T. inversion T; subst; try lia. auto.
  - intros g rho e t min max i pre post K pre1 post1 K1 ps pre' post' K' qs0 L H IH H' IH' C E a b c qs T. inversion T; subst; try lia.
    + match goal with A : gtree_round _ _ _ _ _ _ _ _ _ _ _ _ |- _ => destruct (IH C E _ _ _ _ ltac:(eassumption)) as (-> & -> & -> & ->) end.
      match goal with A : gtree_rounds _ _ _ _ _ _ _ _ _ _ _ _ _ _ |- _ => destruct (IH' C E _ _ _ _ ltac:(eassumption)) as (-> & -> & -> & ->) end. auto.
    + exfalso. match goal with F : gpeg_round _ _ _ _ _ _ _ _ Fail |- _ => assert (Q := OneRound _ _ _ _ _ _ _ _ _ _ C E (T4 _ _ _ _ _ _ _ _ _ _ _ _ H) F) end. discriminate Q.
  - intros g rho e t min max i pre post K L L' F C E a b c qs T. inversion T; subst; try lia; auto.
    exfalso. match goal with H : gtree_round _ _ _ _ _ _ _ _ _ _ _ _ |- _ => assert (Q := OneRound _ _ _ _ _ _ _ _ _ _ C E (T4 _ _ _ _ _ _ _ _ _ _ _ _ H) F) end. discriminate Q.
  - intros g rho e t pre post K pre' post' K' ps H IH C E a b c qs T. inversion T; subst; [eapply IH; eassumption|lia].
  - intros g rho e t i pre post K pre' post' K' ps L H IH C E a b c qs T. inversion T; subst; [lia|]. eapply IH; eassumption.
Qed.

(** Every tree in a tree is the tree of a match of its rule, somewhere in the same text. *)
Definition a_match (s : text) (ps : list (pair label)) : Prop := forall h q a b qs, Spec_Grammar_Tree.within (mkPair (h, q) a b qs) ps ->
  pr_silent q = false /\ In q (g_rules h) /\ exists rho pre post K pre' post' K',
    s = pre ++ post /\ s = pre' ++ post' /\ a = blen pre /\ b = blen pre' /\ gtree h rho (n_expr (pr_node q)) pre post K pre' post' K' qs.
Lemma a_match_nil : forall s, a_match s [].
Proof. intros s h q a b qs H. inversion H. Qed.
Lemma a_match_app : forall s ps qs, a_match s ps -> a_match s qs -> a_match s (ps ++ qs).
Proof.
  intros s ps qs A B. induction ps as [|p ps IH]; [exact B|]. intros h q a b l H. cbn [app] in H. inversion H; subst.
  - apply A. constructor.
  - apply A. apply Within_child. assumption.
  - apply IH; [|assumption]. intros h' q' a' b' l' W. apply A, Within_later, W.
Qed.
Lemma names_listed : forall g p h q, names unicode g p (E_rule h q) -> In q (g_rules h).
Proof.
  intros g p h q H. inversion H as [|p' x O _]; subst. remember (E_rule h q) as e eqn:E. clear H. induction O as [g r I _| |g alias g1 rest x I O IH]; try discriminate E.
  - injection E as <- <-. exact I.
  - apply IH, E.
Qed.
Lemma onward : forall s g rho e pre post K pre' post' K', s = pre ++ post -> gpeg g rho e pre post K (Ok pre' post' K') -> s = pre' ++ post'.
Proof.
  intros s g rho e pre post K pre' post' K' -> H. destruct (gpeg_forward unicode property _ _ _ _ _ _ _ H) as (m & -> & ->). rewrite <- app_assoc. reflexivity.
Qed.
Theorem gtree_each :
  (forall g rho e pre post K pre' post' K' ps, gtree g rho e pre post K pre' post' K' ps -> forall s, s = pre ++ post -> a_match s ps /\ s = pre' ++ post') /\
  (forall g rho l pre post K pre' post' K' ps, gtree_items g rho l pre post K pre' post' K' ps -> forall s, s = pre ++ post -> a_match s ps /\ s = pre' ++ post') /\
  (forall g rho e t min max i pre post K pre' post' K' ps, gtree_rounds g rho e t min max i pre post K pre' post' K' ps ->
     forall s, s = pre ++ post -> a_match s ps /\ s = pre' ++ post') /\
  (forall g rho e t i pre post K pre' post' K' ps, gtree_round g rho e t i pre post K pre' post' K' ps -> forall s, s = pre ++ post -> a_match s ps /\ s = pre' ++ post').
Proof.
  apply (gtree_mutind unicode property open
    (fun g rho e pre post K pre' post' K' ps _ => forall s, s = pre ++ post -> a_match s ps /\ s = pre' ++ post')
    (fun g rho l pre post K pre' post' K' ps _ => forall s, s = pre ++ post -> a_match s ps /\ s = pre' ++ post')
    (fun g rho e t min max i pre post K pre' post' K' ps _ => forall s, s = pre ++ post -> a_match s ps /\ s = pre' ++ post')
    (fun g rho e t i pre post K pre' post' K' ps _ => forall s, s = pre ++ post -> a_match s ps /\ s = pre' ++ post')); intros; eauto;
  try (split; [apply a_match_nil|first [assumption|eapply onward; eassumption]]).
  - (* rule *) match goal with IH : forall s, _ -> _ /\ _, E : ?s = _ |- _ => destruct (IH s E) as (A & B) end. split; [|exact B].
    intros h q a b qs W. inversion W; subst.
    + split; [assumption|]. split; [eapply names_listed; eassumption|]. eexists _, _, _, _, _, _, _. split; [reflexivity|]. split; [exact B|]. split; [reflexivity|]. split; [reflexivity|]. eassumption.
    + apply A. assumption.
    + match goal with X : Spec_Grammar_Tree.within _ [] |- _ => inversion X end.
  - match goal with IH : forall s, _ -> _ /\ _, IH' : forall s, s = ?p ++ ?q -> _ /\ s = ?p' ++ ?q', E : ?s = ?p0 ++ ?q0 |- a_match _ (?a ++ ?b) /\ s = ?p' ++ ?q' =>
      destruct (IH s E) as (A & B); destruct (IH' s B) as (A' & B') end. split; [apply a_match_app; assumption|exact B'].
  - match goal with E : ?s = _ ++ _, G : gpeg _ _ _ _ _ _ (Ok _ _ _) |- _ => assert (Q := onward _ _ _ _ _ _ _ _ _ _ E G) end. eauto.
  - match goal with IH : forall s, _ -> _ /\ _, IH' : forall s, s = ?p ++ ?q -> _ /\ s = ?p' ++ ?q', E : ?s = ?p0 ++ ?q0 |- a_match _ (?a ++ ?b) /\ s = ?p' ++ ?q' =>
      destruct (IH s E) as (A & B); destruct (IH' s B) as (A' & B') end. split; [apply a_match_app; assumption|exact B'].
Qed.
End Det.
