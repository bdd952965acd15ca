(** Proofs about the pairs that the parser of grammar files makes: their texts, where they lie, and the
    order of the items of a file. *)
From Coq Require Import String List NArith ZArith Arith Bool Lia.
From Verif Require Import Model_Text Model_Message Model_Meta Model_Grammar Model_Pest2 Spec_Unescape Spec_Message Spec_Grammar
  Spec_Import Spec_Pest2 Proof_Pest2 Proof_Syntax.
Import ListNotations.
Open Scope list_scope.

(** * Generalities. *)
Definition rel := atomicity -> qrule -> qstate -> qstate -> list ppair -> Prop.
Lemma rounds_mono : forall (A B : qstate -> qstate -> list ppair -> Prop) (G : qstate -> qstate -> Prop), (forall s s' p, A s s' p -> B s s' p) ->
  forall s s' ps, rounds A G s s' ps -> rounds B G s s' ps.
Proof. intros A B G H s s' ps X. induction X as [s|s s0 s1 s' p q G' O _ IH]; [constructor|econstructor; [exact G'|apply H, O|exact IH]]. Qed.
Lemma holds_mono : forall R R' : rel, (forall a r s s' ps, R a r s s' ps -> R' a r s s' ps) ->
  forall a e s s' ps, holds R a e s s' ps -> holds R' a e s s' ps.
Proof.
  intros R R' H a. induction e as [t|x y| | | |r|x IHx y IHy|x IHx y IHy|x IHx|x IHx|x IHx|x IHx|x IHx|x IHx| |]; intros s s' ps X; cbn [holds] in *; try exact X.
  - apply H, X.
  - destruct X as (s1 & s2 & p & q & X & G & Y & E). exists s1, s2, p, q. auto.
  - destruct X as [X|(F & X)]; [left|right]; auto.
  - destruct X as [X|X]; [left|right]; auto.
  - destruct X as [X|(s1 & p & q & X & Y & E)]; [left; exact X|right]. exists s1, p, q. split; [apply IHx, X|].
    split; [|exact E]. eapply rounds_mono; [|exact Y]. exact IHx.
  - eapply rounds_mono; [|exact X]. exact IHx.
  - destruct X as (s1 & X & E). exists s1. auto.
Qed.
Lemma holds_pairs : forall (R : rel) (P : ppair -> Prop), (forall a r s s' ps, R a r s s' ps -> Forall P ps) ->
  forall a e s s' ps, holds R a e s s' ps -> Forall P ps.
Proof.
  intros R P H a.
  assert (RO : forall e, (forall s s' ps, holds R a e s s' ps -> Forall P ps) ->
    forall s s' ps, rounds (holds R a e) (gap a) s s' ps -> Forall P ps).
  { intros e HE s s' ps X. revert X. apply rounds_pairs; [constructor|]. intros t t' p q X F. apply Forall_app. split; [eapply HE, X|exact F]. }
  induction e as [t|x y| | | |r|x IHx y IHy|x IHx y IHy|x IHx|x IHx|x IHx|x IHx|x IHx|x IHx| |]; intros s s' ps X; cbn [holds] in X.
  - destruct X as (_ & ->). constructor.
  - destruct X as (_ & ->). constructor.
  - destruct X as (_ & ->). constructor.
  - destruct X as (_ & ->). constructor.
  - destruct X as (_ & -> & _). constructor.
  - eapply H, X.
  - destruct X as (s1 & s2 & p & q & X & _ & Y & ->). apply Forall_app. split; [eapply IHx, X|eapply IHy, Y].
  - destruct X as [X|(_ & X)]; [eapply IHx, X|eapply IHy, X].
  - destruct X as [X|(_ & ->)]; [eapply IHx, X|constructor].
  - destruct X as [(_ & ->)|(s1 & p & q & X & Y & ->)]; [constructor|]. apply Forall_app. split; [eapply IHx, X|eapply RO, Y; exact IHx].
  - eapply RO, X. exact IHx.
  - destruct X as (_ & _ & ->). constructor.
  - destruct X as (_ & ->). constructor.
  - destruct X as (s1 & X & _). eapply IHx, X.
  - destruct X as (t & rest & _ & _ & ->). constructor.
  - destruct X as (t & rest & s1 & _ & _ & _ & ->). constructor.
Qed.

(** * Texts. *)
Definition proper : rel := fun a r s s' ps => good a r s s' ps /\ Forall (everywhere proper_token) ps.
Lemma proper_closed : forall a r s s' ps, holds proper (inside_of a r) (body_of r) s s' ps -> proper a r s s' (wrap a r s s' ps).
Proof.
  intros a r s s' ps H. assert (G : good a r s s' (wrap a r s s' ps)).
  { apply good_closed. eapply holds_mono; [|exact H]. intros b q t t' l X. apply X. }
  split; [exact G|]. apply (holds_pairs proper (everywhere proper_token)) in H; [|intros b q t t' l X; apply X].
  destruct r as [g|g]; [|exact H]. cbn [wrap] in *. destruct (makes a g) eqn:M; [|exact H].
  destruct G as (u & O & T & _ & K). destruct (K M) as (l & E & Q). rewrite (over_taken _ _ _ O) in *. injection E as <-.
  constructor; [|constructor]. constructor; [|exact H]. split; cbn [pp_rule pp_str].
  - destruct g; try exact T; try exact I. apply T.
  - intros ->. apply Q.
Qed.
Lemma parse_proper : forall k r input s ps, qparse k r input = Ret (Some (s, ps)) -> Forall (everywhere proper_token) ps.
Proof. intros k r input s ps H. unfold qparse in H. apply (holds_sound proper proper_closed) in H. apply H. Qed.

(** * Places. *)
Section Places.
Variable input : text.
Lemma order_le : forall l a b, Forall (placed input) l -> in_order input a b l -> a <= b.
Proof.
  induction l as [|p l IH]; intros a b F H; inversion H as [? ? L|? ? ? ? P A X]; subst; [exact L|].
  inversion F as [|? ? _ F']; subst. apply IH in X; [|exact F']. assert (pp_start p <= pp_end p) by (destruct P; cbn [pp_start pp_end]; lia). lia.
Qed.
Lemma order_placed : forall l a b, in_order input a b l -> Forall (placed input) l.
Proof. intros l. induction l as [|p l IH]; intros a b H; [constructor|]. inversion H; subst. constructor; [assumption|eapply IH; eassumption]. Qed.
Lemma order_weaken : forall l a b c d, in_order input a b l -> c <= a -> b <= d -> in_order input c d l.
Proof.
  induction l as [|p l IH]; intros a b c d H C D; inversion H as [? ? L|? ? ? ? P A X]; subst; [constructor; lia|].
  constructor; [exact P|lia|]. eapply IH; [exact X|lia|exact D].
Qed.
Lemma order_app : forall l m a b c d, in_order input a b l -> in_order input c d m -> b <= c -> in_order input a d (l ++ m).
Proof.
  induction l as [|p l IH]; intros m a b c d H X L; inversion H as [? ? L'|? ? ? ? P A Y]; subst; cbn [app].
  - eapply order_weaken; [exact X|lia|lia].
  - constructor; [exact P|exact A|]. eapply IH; eassumption.
Qed.
Definition located (s : qstate) : Prop := exists before, input = before ++ q_rest s /\ q_pos s = blen before.
Lemma located_moved : forall s s' u, located s -> moved s s' u -> located s'.
Proof.
  intros s s' u (before & E & P) (M & Q). exists (before ++ u). rewrite E, M, app_assoc, blen_app. split; [reflexivity|lia].
Qed.
Definition lies (s s' : qstate) (ps : list ppair) : Prop :=
  exists u, moved s s' u /\ (located s -> in_order input (q_pos s) (q_pos s') ps).
Lemma lies_nil : forall s s' u, moved s s' u -> lies s s' [].
Proof. intros s s' u M. exists u. split; [exact M|]. intros _. constructor. destruct M as (_ & ->). lia. Qed.
Lemma lies_app : forall s s1 s2 s' v p q, lies s s1 p -> moved s1 s2 v -> lies s2 s' q -> lies s s' (p ++ q).
Proof.
  intros s s1 s2 s' v p q (u & M & P) V (w & N & Q). exists (u ++ v ++ w). split.
  - eapply moved_trans; [exact M|]. eapply moved_trans; eassumption.
  - intro L. pose proof (located_moved _ _ _ L M) as L1. pose proof (located_moved _ _ _ L1 V) as L2.
    eapply order_app; [apply P, L|apply Q, L2|]. destruct V as (_ & ->). lia.
Qed.
Definition placing : rel := fun a r s s' ps => lies s s' ps.
Lemma gap_moved : forall a s s', gap a s s' -> exists u, moved s s' u.
Proof. intros a s s' G. apply gap_over in G as (u & M & _). exists u. exact M. Qed.
Lemma holds_lies : forall a e s s' ps, holds placing a e s s' ps -> lies s s' ps.
Proof.
  intro a.
  assert (RO : forall e, (forall s s' ps, holds placing a e s s' ps -> lies s s' ps) ->
    forall s s' ps, rounds (holds placing a e) (gap a) s s' ps -> lies s s' ps).
  { intros e HE s s' ps X. induction X as [s|s s0 s1 s' p q G O _ IH]; [exact (lies_nil _ _ _ (moved_refl s))|].
    apply gap_moved in G as (u & G). apply HE in O. change (p ++ q) with ([] ++ p ++ q).
    eapply lies_app; [exact (lies_nil _ _ _ (moved_refl s))|exact G|]. eapply lies_app; [exact O|apply moved_refl|exact IH]. }
  induction e as [t|x y| | | |r|x IHx y IHy|x IHx y IHy|x IHx|x IHx|x IHx|x IHx|x IHx|x IHx| |]; intros s s' ps X; cbn [holds] in X.
  - destruct X as ((M & _) & ->). eapply lies_nil, M.
  - destruct X as ((c & _ & M & _) & ->). eapply lies_nil, M.
  - destruct X as ((c & M & _) & ->). eapply lies_nil, M.
  - destruct X as (-> & ->). exact (lies_nil _ _ _ (moved_refl s)).
  - destruct X as (-> & -> & _). exact (lies_nil _ _ _ (moved_refl s)).
  - exact X.
  - destruct X as (s1 & s2 & p & q & X & G & Y & ->). apply gap_moved in G as (u & G). eapply lies_app; [apply IHx, X|exact G|apply IHy, Y].
  - destruct X as [X|(_ & X)]; [apply IHx, X|apply IHy, X].
  - destruct X as [X|(-> & ->)]; [apply IHx, X|exact (lies_nil _ _ _ (moved_refl s))].
  - destruct X as [(-> & ->)|(s1 & p & q & X & Y & ->)]; [exact (lies_nil _ _ _ (moved_refl s))|].
    eapply lies_app; [apply IHx, X|apply moved_refl|eapply RO, Y; exact IHx].
  - eapply RO, X. exact IHx.
  - destruct X as (_ & -> & ->). exact (lies_nil _ _ _ (moved_refl s)).
  - destruct X as (-> & ->). exact (lies_nil _ _ _ (moved_refl s)).
  - destruct X as (s1 & X & ->). exact (IHx _ _ _ X).
  - destruct X as (t & rest & _ & (M & _) & ->). eapply lies_nil, M.
  - destruct X as (t & rest & s1 & _ & (M & _) & -> & ->). exact (lies_nil s s1 t M).
Qed.
Lemma placing_closed : forall a r s s' ps, holds placing (inside_of a r) (body_of r) s s' ps -> placing a r s s' (wrap a r s s' ps).
Proof.
  intros a r s s' ps H. apply holds_lies in H as (u & M & L). exists u. split; [exact M|]. intro B. specialize (L B).
  destruct r as [g|g]; [|exact L]. cbn [wrap]. destruct (makes a g); [|exact L]. rewrite (taken_moved _ _ _ M).
  destruct B as (before & E & P). pose proof M as (M1 & M2). constructor; cbn [pp_start pp_end]; [|lia|constructor; lia].
  apply (Placed input g u _ _ ps before (q_rest s')); [rewrite E, M1; reflexivity|exact P|exact M2|exact L].
Qed.
Lemma parse_placed : forall k r s ps, qparse k r input = Ret (Some (s, ps)) ->
  located s /\ in_order input 0 (q_pos s) ps.
Proof.
  intros k r s ps H. unfold qparse in H. apply (holds_sound placing placing_closed) in H as (u & M & L).
  assert (located (mkQ 0 input [])) as B by (exists []; split; reflexivity). split; [eapply located_moved; eassumption|exact (L B)].
Qed.
End Places.

(** * The items of a file. *)
Lemma rules_of : forall e (Q : grule -> Prop), (forall s s' p, holds good NonAtomic e s s' p -> Forall (fun p => Q (pp_rule p)) p) ->
  forall s s' ps, holds good NonAtomic (Q_rep e) s s' ps -> Forall (fun p => Q (pp_rule p)) ps.
Proof. intros e Q H. apply (forall_round NonAtomic (fun p => Q (pp_rule p))), H. Qed.
Lemma file_order : forall k input s ps, qparse k (Silent S_grammar_rules) input = Ret (Some (s, ps)) -> q_rest s = [] /\ file_pairs input ps.
Proof.
  intros k input s ps H. destruct k as [|k]; [discriminate|]. unfold qparse in H. rewrite match_rule in H. apply then_some in H as (s0 & p0 & H & E).
  cbn [wrap] in E. injection E as -> ->. pose proof H as H'. apply match_moved in H' as (u & M1 & M2). cbn [q_pos q_rest] in M1, M2.
  apply (holds_sound good good_closed) in H. cbn [body_of inside_of silent_body] in H.
  destruct H as (s1 & s2 & p1 & q1 & (_ & ->) & _ & H & ->).
  destruct H as (s3 & s4 & p2 & q2 & X1 & _ & H & ->). destruct H as (s5 & s6 & p3 & q3 & X2 & _ & H & ->).
  destruct H as (s7 & s8 & p4 & q4 & X3 & _ & H & ->). destruct H as (s9 & s10 & p5 & q5 & X4 & _ & X5 & ->).
  apply (one NonAtomic eq_refl) in X3 as (u3 & l3 & _ & _ & -> & _). apply (one NonAtomic eq_refl) in X5 as (u5 & l5 & O5 & (-> & E) & -> & _).
  split; [exact E|]. cbn [app]. rewrite E, app_nil_r in M1. subst u. cbn [Nat.add] in M2.
  assert (q_pos s10 = blen input) as ->.
  { destruct O5 as ((_ & O5) & _). cbn [blen] in O5. unfold text in *. cbn in O5. lia. }
  rewrite M2. apply File_pairs.
  - eapply (rules_of _ (fun r => r = R_grammar_doc)); [|exact X1]. intros t t' p X. apply (one NonAtomic eq_refl) in X as (w & l & _ & _ & -> & _).
    constructor; [reflexivity|constructor].
  - eapply (rules_of _ (fun r => r = R_import)); [|exact X2]. intros t t' p X. apply (one NonAtomic eq_refl) in X as (w & l & _ & _ & -> & _).
    constructor; [reflexivity|constructor].
  - reflexivity.
  - eapply (rules_of _ (fun r => r = R_import \/ r = R_grammar_rule)); [|exact X4].
    intros t t' p [X|(_ & X)]; apply (one NonAtomic eq_refl) in X as (w & l & _ & _ & -> & _); (constructor; [|constructor]); [left|right]; reflexivity.
Qed.
