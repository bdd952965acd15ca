(** In a complete grammar an expression has at most one result. *)
From Coq Require Import String List NArith ZArith Arith Bool Lia.
From Verif Require Import Proof_Complete Proof_Leaf Proof_Accepted Proof_Accept Model_Text Model_Message Model_Meta Model_Import Model_Node Spec_Text Spec_Peg Spec_Grammar_Peg Spec_Occur Spec_Generator.
Import ListNotations.
Open Scope list_scope.

Lemma own_complete : forall unicode g path x, own_name unicode g path x -> complete unicode g -> forall h r, x = E_rule h r -> complete unicode h.
Proof.
  intros unicode g path x H. induction H as [g r I N|g alias p rest I B|g alias g' rest x I O IH]; intros C h q E.
  - injection E as <- _. exact C.
  - discriminate E.
  - apply (IH ltac:(inversion C; eauto) h q E).
Qed.
Lemma names_complete : forall unicode g path h r, names unicode g path (E_rule h r) -> complete unicode g -> complete unicode h.
Proof. intros unicode g path h r H C. inversion H; subst. eapply own_complete; eauto. Qed.

Section Det.
Variable unicode : list text.
Variable property : N -> char -> bool.
Hypothesis Distinct : distinct_properties unicode.
Notation G := (gpeg unicode property).

Inductive good_clo : closure -> Prop :=
| GC m rho e : complete unicode m -> good_env rho -> good_clo (Clo m rho e)
with good_env : list (text * closure) -> Prop :=
| GE_nil : good_env []
| GE_cons x c rho : good_clo c -> good_env rho -> good_env ((x, c) :: rho).
Lemma good_assoc : forall rho x m rho' e, good_env rho -> assoc x rho (Clo m rho' e) -> complete unicode m /\ good_env rho'.
Proof. intros rho x m rho' e H A. remember (Clo m rho' e) as c eqn:Ec. induction A; inversion H; subst; [|auto].
  match goal with X : good_clo _ |- _ => inversion X; subst end. auto. Qed.
Lemma good_call : forall m rho ps l, complete unicode m -> good_env rho -> good_env (combine ps (map (fun n => Clo m rho (n_expr n)) l)).
Proof. intros m rho ps l C H. revert ps. induction l as [|n l IH]; intros [|p ps]; try constructor; [constructor; assumption|apply IH]. Qed.

Lemma builtin_det : forall q pre post K r r', gpeg_builtin unicode property q pre post K r -> gpeg_builtin unicode property q pre post K r' -> r = r'.
Proof.
  intros q pre post K r r' H J. destruct H; inversion J; subst;
    try (match goal with X : char_class _ _ |- _ => solve [inversion X] end);
    try (match goal with A : terminal _ _ _ _ _ _, B : terminal _ _ _ _ _ _ |- _ => exact (terminal_det _ _ _ _ _ _ _ A B) end).
  all: try (match goal with A : char_class ?x ?P, B : char_class ?x ?Q |- _ => rewrite (char_class_unique x P Q A B) in * end; eapply one_char_det; eassumption).
  - match goal with A : property_number _ _ ?i, B : property_number _ _ ?j |- _ => assert (E : i = j) by (eapply property_unique; eassumption); rewrite E in * end.
    eapply one_char_det; eassumption.
Qed.
Lemma last_det : forall g name r r', last_rule g name r -> last_rule g name r' -> r = r'.
Proof.
  intros g name r r' (a & b & E & N & L) (a' & b' & E' & N' & L'). rewrite E in E'. apply app_eq_app in E'. destruct E' as (l & [(-> & D)|(-> & D)]).
  - destruct l as [|q l]; cbn in D; injection D; [congruence|]. intros -> <-. exfalso. destruct (L' r) as []; [apply in_or_app; right; left; reflexivity|exact N].
  - destruct l as [|q l]; cbn in D; injection D; [congruence|]. intros -> <-. exfalso. destruct (L r') as []; [apply in_or_app; right; left; reflexivity|exact N'].
Qed.
Lemma repetition_det : forall e n min max n' min' max', repetition e n min max -> repetition e n' min' max' -> n = n' /\ min = min' /\ max = max'.
Proof.
  intros e n min max n' min' max' [(-> & -> & ->)|[(-> & -> & ->)|(range & -> & A & B)]] [(E & -> & ->)|[(E & -> & ->)|(range' & E & A' & B')]];
    try discriminate E; injection E; intros; subst; auto.
  split; [reflexivity|]. split; [destruct A as [A|(A & ->)], A' as [A'|(A' & ->)]|destruct B as [B|(B & ->)], B' as [B'|(B' & ->)]]; congruence.
Qed.
Lemma round_trivia_det : forall e t t', round_trivia e t -> round_trivia e t' -> t = t'.
Proof. intros e t t' [(n & ->)|(N & ->)] [(n' & E)|(N' & ->)]; [congruence|destruct (N' _ _ eq_refl)|destruct (N _ _ E)|reflexivity]. Qed.

Ltac args := match goal with
  | A : call_arguments ?x ?l, B : call_arguments ?x ?l' |- _ =>
      assert (l = l') by (destruct A as [->|(-> & ->)], B as [?|(? & ->)]; congruence); subst end.
Ltac name_det := match goal with
  | C : complete _ ?g, A : names _ ?g ?p ?x, B : names _ ?g ?p ?y |- _ =>
      let E := fresh "E" in assert (E := complete_unique _ _ C _ _ _ A B); try discriminate E; try (injection E; clear B; intros); subst end.
Ltac shadow := match goal with
  | N : (forall x c, [?y] = [x] -> ~ assoc x ?rho c), A : assoc ?y ?rho ?c |- _ => destruct (N y c eq_refl A)
  end.
Ltac no_rep := match goal with H : repetition ?e _ _ _ |- _ =>
  let Q := fresh in solve [destruct H as [(Q & _)|[(Q & _)|(? & Q & _)]]; discriminate Q] end.
Ltac use := repeat match goal with
  | IH : (_ -> _ -> forall r', gpeg _ _ ?g ?rho ?e ?a ?b ?K r' -> _), H : gpeg _ _ ?g ?rho ?e ?a ?b ?K _ |- _ =>
      apply IH in H; [|solve [eauto using names_complete, good_call, GE_nil]..]; try discriminate H; try (injection H; intros; clear H); subst
  | IH : (_ -> _ -> forall r', gpeg_items _ _ ?g ?rho ?e ?a ?b ?K r' -> _), H : gpeg_items _ _ ?g ?rho ?e ?a ?b ?K _ |- _ =>
      apply IH in H; [|solve [eauto]..]; try discriminate H; try (injection H; intros; clear H); subst
  | IH : (_ -> _ -> forall r', gpeg_round _ _ ?g ?rho ?e ?t ?i ?a ?b ?K r' -> _), H : gpeg_round _ _ ?g ?rho ?e ?t ?i ?a ?b ?K _ |- _ =>
      apply IH in H; [|solve [eauto]..]; try discriminate H; try (injection H; intros; clear H); subst
  | IH : (_ -> _ -> forall r', gpeg_rounds _ _ ?g ?rho ?e ?t ?mi ?ma ?i ?a ?b ?K r' -> _), H : gpeg_rounds _ _ ?g ?rho ?e ?t ?mi ?ma ?i ?a ?b ?K _ |- _ =>
      apply IH in H; [|solve [eauto]..]; try discriminate H; try (injection H; intros; clear H); subst
  end.

Theorem gpeg_unique :
  (forall m rho e pre post K r, G m rho e pre post K r -> complete unicode m -> good_env rho -> forall r', G m rho e pre post K r' -> r = r') /\
  (forall m rho l pre post K r, gpeg_items unicode property m rho l pre post K r -> complete unicode m -> good_env rho ->
     forall r', gpeg_items unicode property m rho l pre post K r' -> r = r') /\
  (forall m rho e t min max i pre post K r, gpeg_rounds unicode property m rho e t min max i pre post K r -> complete unicode m -> good_env rho ->
     forall r', gpeg_rounds unicode property m rho e t min max i pre post K r' -> r = r') /\
  (forall m rho e t i pre post K r, gpeg_round unicode property m rho e t i pre post K r -> complete unicode m -> good_env rho ->
     forall r', gpeg_round unicode property m rho e t i pre post K r' -> r = r').
Proof.
  apply (gpeg_mutind unicode property
    (fun m rho e pre post K r _ => complete unicode m -> good_env rho -> forall r', G m rho e pre post K r' -> r = r')
    (fun m rho l pre post K r _ => complete unicode m -> good_env rho -> forall r', gpeg_items unicode property m rho l pre post K r' -> r = r')
    (fun m rho e t min max i pre post K r _ => complete unicode m -> good_env rho -> forall r', gpeg_rounds unicode property m rho e t min max i pre post K r' -> r = r')
    (fun m rho e t i pre post K r _ => complete unicode m -> good_env rho -> forall r', gpeg_round unicode property m rho e t i pre post K r' -> r = r')).
  19: { (* repetition *) intros g rho e n min max t pre post K r R T _ IH C E r' H.
    inversion H; subst; try no_rep.
    match goal with A : repetition ?x n min max, B : repetition ?x _ _ _ |- _ => destruct (repetition_det _ _ _ _ _ _ _ A B) as (<- & <- & <-) end.
    match goal with A : round_trivia (n_expr n) t, B : round_trivia (n_expr n) _ |- _ => destruct (round_trivia_det _ _ _ A B) end.
    eapply IH; eassumption. }
  all: intros.
  all: match goal with
       | H : gpeg _ _ _ _ _ _ _ _ ?r |- _ = ?r => inversion H; subst; try no_rep
       | H : gpeg_items _ _ _ _ _ _ _ _ ?r |- _ = ?r => inversion H; subst
       | H : gpeg_rounds _ _ _ _ _ _ _ _ _ _ _ _ ?r |- _ = ?r => inversion H; subst
       | H : gpeg_round _ _ _ _ _ _ _ _ _ _ ?r |- _ = ?r => inversion H; subst
       end; try (exfalso; lia); try shadow; try name_det; use; auto; try (exfalso; lia).
  all: try (eapply one_text_det; eassumption).
  all: try (eapply one_char_det; eassumption).
  all: try (eapply terminal_det; eassumption).
  1: { match goal with A : assoc ?x ?rho _, B : assoc ?x ?rho _ |- _ => assert (E := assoc_det _ _ _ _ A B) end. injection E as <- <- <-.
       match goal with A : assoc _ _ _ |- _ => destruct (good_assoc _ _ _ _ _ H1 A) end. auto. }
  all: try (args; use; auto; fail).
  all: try (match goal with A : _ \/ _ /\ exists x, _ = [lit "unicode"; x] |- _ => destruct A as [A|(A & ? & ?)]; discriminate end).
  all: try (eapply builtin_det; eassumption).
  all: try (match goal with A : trivia_name TriviaNone = Some _ |- _ => discriminate A end).
  all: try (match goal with A : trivia_name ?t = Some ?x, B : trivia_name ?t = Some ?y |- _ => assert (x = y) by congruence; subst end;
            match goal with A : last_rule ?g ?x ?r, B : last_rule ?g ?x ?r' |- _ => assert (r = r') by (eapply last_det; eassumption); subst end; use; auto; fail).
  2: { f_equal; [assumption|]. f_equal. eapply app_inv_head; eassumption. }
  assert (a = a0) as -> by (destruct o as [A|(A & ->)], H6 as [B|(B & ->)]; congruence).
  assert (n = n2) as -> by (destruct o0 as [(A & A')|(b & A & A')], H9 as [(B & B')|(b' & B & B')]; congruence).
  eapply terminal_det; eassumption.
Qed.
End Det.
