(** Proofs about the pairs that the parser of grammar files makes. *)
From Coq Require Import String List NArith ZArith Arith Bool Lia.
From Verif Require Import Model_Text Model_Message Model_Meta Model_Grammar Model_Pest2 Spec_Unescape Spec_Message Spec_Grammar
  Spec_Import Spec_Pest2 Proof_Pest2 Proof_Reading.
Import ListNotations.
Open Scope list_scope.

(** * What a match implies, given what matches of rules imply. *)
Definition fails (a : atomicity) (e : qexpr) (s : qstate) : Prop := exists k, qmatch k a e s = Ret None.
Definition over (s s' : qstate) (u : text) : Prop := moved s s' u /\ q_stack s' = q_stack s.
Definition gap (a : atomicity) (s s' : qstate) : Prop := if skips a then exists w, over s s' w else s' = s.
Inductive rounds (one : qstate -> qstate -> list ppair -> Prop) (between : qstate -> qstate -> Prop) :
  qstate -> qstate -> list ppair -> Prop :=
| Rounds_end s : rounds one between s s []
| Rounds_next s s0 s1 s' p q : between s s0 -> one s0 s1 p -> rounds one between s1 s' q -> rounds one between s s' (p ++ q).

Section Holds.
Variable R : atomicity -> qrule -> qstate -> qstate -> list ppair -> Prop.
Fixpoint holds (a : atomicity) (e : qexpr) (s s' : qstate) (ps : list ppair) {struct e} : Prop :=
  match e with
  | Q_str t => over s s' t /\ ps = []
  | Q_chars x y => (exists c, (x <= c <= y)%N /\ over s s' [c]) /\ ps = []
  | Q_any => (exists c, over s s' [c]) /\ ps = []
  | Q_soi => s' = s /\ ps = []
  | Q_end => s' = s /\ ps = [] /\ q_rest s = []
  | Q_rule r => R a r s s' ps
  | Q_seq x y => exists s1 s2 p q, holds a x s s1 p /\ gap a s1 s2 /\ holds a y s2 s' q /\ ps = p ++ q
  | Q_choice x y => holds a x s s' ps \/ (fails a x s /\ holds a y s s' ps)
  | Q_opt x => holds a x s s' ps \/ (s' = s /\ ps = [])
  | Q_rep x => (s' = s /\ ps = []) \/
      exists s1 p q, holds a x s s1 p /\ rounds (holds a x) (gap a) s1 s' q /\ ps = p ++ q
  | Q_more x => rounds (holds a x) (gap a) s s' ps
  | Q_not x => fails a x s /\ s' = s /\ ps = []
  | Q_and x => s' = s /\ ps = []
  | Q_push x => exists s1, holds a x s s1 ps /\ s' = mkQ (q_pos s1) (q_rest s1) (taken s s1 :: q_stack s1)
  | Q_peek => exists t rest, q_stack s = t :: rest /\ over s s' t /\ ps = []
  | Q_pop => exists t rest s1, q_stack s = t :: rest /\ over s s1 t /\ s' = mkQ (q_pos s1) (q_rest s1) rest /\ ps = []
  end.
Hypothesis closed : forall a r s s' ps, holds (inside_of a r) (body_of r) s s' ps -> R a r s s' (wrap a r s s' ps).

Lemma eat_over : forall t s s', eat t s = Some s' -> over s s' t.
Proof. intros t s s' H. split; [apply eat_moved, H|apply eat_stack in H; exact H]. Qed.
Lemma eat_char_over : forall f s s', eat_char f s = Some s' -> exists c, f c = true /\ over s s' [c].
Proof.
  intros f s s' H. pose proof (eat_char_stack _ _ _ H) as S. apply eat_char_moved in H as (c & F & M).
  exists c. split; [exact F|]. split; [exact M|exact S].
Qed.
Lemma skip_gap : forall k a s s' ps, skip k a s = Ret (Some (s', ps)) -> gap a s s'.
Proof.
  intros k a s s' ps H. pose proof (skip_stack _ _ _ _ _ H) as S. unfold skip in H. unfold gap. destruct (skips a).
  - apply match_moved in H as (u & M). exists u. split; assumption.
  - injection H as <- <-. reflexivity.
Qed.
Lemma holds_sound : forall k a e s s' ps, qmatch k a e s = Ret (Some (s', ps)) -> holds a e s s' ps.
Proof.
  induction k as [|k IH]; intros a e s s' ps H; [discriminate|].
  destruct e as [t|x y| | | |r|x y|x y|x|x|x|x|x|x| |]; cbn [holds].
  - apply plain_some in H as (H & ->). split; [apply eat_over, H|reflexivity].
  - apply plain_some in H as (H & ->). split; [|reflexivity]. apply eat_char_over in H as (c & F & O). exists c. split; [|exact O].
    apply andb_prop in F as (F1 & F2). apply N.leb_le in F1, F2. lia.
  - apply plain_some in H as (H & ->). split; [|reflexivity]. apply eat_char_over in H as (c & F & O). exists c. exact O.
  - cbn [qmatch] in H. destruct (q_pos s =? 0); [|discriminate]. injection H as <- <-. auto.
  - cbn [qmatch] in H. destruct (q_rest s); [|discriminate]. injection H as <- <-. auto.
  - rewrite match_rule in H. apply then_some in H as (s1 & p1 & X & H). injection H as <- <-. apply closed, IH, X.
  - apply seq_inv in H as (s1 & s2 & p1 & p0 & p2 & X & K & Y & ->). exists s1, s2, p1, p2.
    split; [apply IH, X|]. split; [apply skip_gap in K; exact K|]. split; [apply IH, Y|reflexivity].
  - apply choice_inv in H as [(t & E & X)|(F & Y)]; [injection E as <-; left; apply IH, X|right].
    split; [exists k; exact F|apply IH, Y].
  - apply opt_inv in H as [X|(_ & E)]; [left; apply IH, X|right]. injection E as -> ->. auto.
  - apply rep_inv in H as [(_ & -> & ->)|(s1 & p1 & p2 & X & Y & ->)]; [left; auto|right]. exists s1, p1, p2.
    split; [apply IH, X|]. split; [|reflexivity]. apply (IH a (Q_more x)) in Y. exact Y.
  - apply more_inv in H as [(-> & ->)|(s0 & p0 & s1 & p1 & p2 & K & X & Y & ->)]; [apply Rounds_end|].
    apply skip_gap in K. eapply Rounds_next; [exact K|apply IH, X|]. apply (IH a (Q_more x)) in Y. exact Y.
  - apply not_inv in H as (F & E). injection E as -> ->. split; [exists k; exact F|auto].
  - apply and_inv in H as (_ & E). injection E as -> ->. auto.
  - apply push_inv in H as (s1 & X & ->). exists s1. split; [apply IH, X|reflexivity].
  - apply peek_inv in H as (t & rest & S & E & ->). exists t, rest. split; [exact S|]. split; [apply eat_over, E|reflexivity].
  - apply pop_inv in H as (t & rest & s1 & S & E & -> & ->). exists t, rest, s1. split; [exact S|]. split; [apply eat_over, E|auto].
Qed.
End Holds.

(** * Failures. *)
Lemma not_fails : forall k a e s t, qmatch k a e s = Ret (Some t) -> fails a e s -> False.
Proof. intros k a e s t H (k' & F). pose proof (match_same _ _ _ _ _ _ _ H F). discriminate. Qed.
Lemma fails_str : forall a t s, fails a (Q_str t) s -> strip t (q_rest s) = None.
Proof.
  intros a t s (k & F). destruct k as [|k]; [discriminate|]. cbn [qmatch] in F. unfold plain_match, eat in F.
  destruct (strip t (q_rest s)); [discriminate|reflexivity].
Qed.
Lemma fails_choice : forall a x y s, fails a (Q_choice x y) s -> fails a x s /\ fails a y s.
Proof.
  intros a x y s (k & F). destruct k as [|k]; [discriminate|].
  apply choice_inv in F as [(t & E & _)|(X & Y)]; [discriminate|]. split; exists k; assumption.
Qed.

(** * Going over a text. *)
Lemma over_refl : forall s, over s s [].
Proof. intro s. split; [apply moved_refl|reflexivity]. Qed.
Lemma over_trans : forall s s1 s2 u v, over s s1 u -> over s1 s2 v -> over s s2 (u ++ v).
Proof. intros s s1 s2 u v (M & S) (M' & S'). split; [eapply moved_trans; eassumption|congruence]. Qed.
Lemma over_same : forall s s' u v, over s s' u -> over s s' v -> u = v.
Proof. intros s s' u v ((A & _) & _) ((B & _) & _). rewrite A in B. apply app_inv_tail in B. exact B. Qed.
Lemma over_taken : forall s s' u, over s s' u -> taken s s' = u.
Proof. intros s s' u (M & _). apply taken_moved, M. Qed.
Lemma gap_over : forall a s s', gap a s s' -> exists w, over s s' w.
Proof. intros a s s' G. unfold gap in G. destruct (skips a); [exact G|]. subst s'. exists []. apply over_refl. Qed.
Lemma rounds_over : forall (one : qstate -> qstate -> list ppair -> Prop) (between : qstate -> qstate -> Prop) s s' ps,
  (forall s s' p, one s s' p -> exists u, over s s' u) -> (forall s s', between s s' -> exists u, over s s' u) ->
  rounds one between s s' ps -> exists u, over s s' u.
Proof.
  intros one between s s' ps H1 H2 H. induction H as [s|s s0 s1 s' p q B O _ (v & V)]; [exists []; apply over_refl|].
  apply H2 in B as (w & W). apply H1 in O as (u & U). exists (w ++ u ++ v). eapply over_trans; [exact W|]. eapply over_trans; eassumption.
Qed.

(** Expressions that do not touch the stack. *)
Fixpoint stackless (e : qexpr) : bool :=
  match e with
  | Q_push _ | Q_peek | Q_pop => false
  | Q_seq x y | Q_choice x y => stackless x && stackless y
  | Q_opt x | Q_rep x | Q_more x => stackless x
  | _ => true
  end.
Lemma holds_over : forall R : atomicity -> qrule -> qstate -> qstate -> list ppair -> Prop, (forall a r s s' ps, R a r s s' ps -> exists u, over s s' u) ->
  forall a e s s' ps, stackless e = true -> holds R a e s s' ps -> exists u, over s s' u.
Proof.
  intros R HR a. assert (RO : forall e, (forall s s' ps, holds R a e s s' ps -> exists u, over s s' u) ->
    forall s s' ps, rounds (holds R a e) (gap a) s s' ps -> exists u, over s s' u).
  { intros e H s s' ps. apply rounds_over; [exact H|]. intros ? ?. apply gap_over. }
  induction e as [t|x y| | | |r|x IHx y IHy|x IHx y IHy|x IHx|x IHx|x IHx|x IHx|x IHx|x IHx| |]; intros s s' ps T H; cbn [holds stackless] in *;
    try discriminate.
  - exists t. apply H.
  - destruct H as ((c & _ & O) & _). exists [c]. exact O.
  - destruct H as ((c & O) & _). exists [c]. exact O.
  - destruct H as (-> & _). exists []. apply over_refl.
  - destruct H as (-> & _). exists []. apply over_refl.
  - eapply HR, H.
  - apply andb_prop in T as (Tx & Ty). destruct H as (s1 & s2 & p & q & X & G & Y & _).
    apply IHx in X as (u & X); [|exact Tx]. apply gap_over in G as (w & G). apply IHy in Y as (v & Y); [|exact Ty].
    exists (u ++ w ++ v). eapply over_trans; [exact X|]. eapply over_trans; eassumption.
  - apply andb_prop in T as (Tx & Ty). destruct H as [X|(_ & Y)]; [eapply IHx; eassumption|eapply IHy; eassumption].
  - destruct H as [X|(-> & _)]; [eapply IHx; eassumption|exists []; apply over_refl].
  - destruct H as [(-> & _)|(s1 & p & q & X & Y & _)]; [exists []; apply over_refl|].
    apply IHx in X as (u & X); [|exact T]. apply (RO x) in Y as (v & Y); [|intros; eapply IHx; eassumption].
    exists (u ++ v). eapply over_trans; eassumption.
  - eapply (RO x); [intros; eapply IHx; eassumption|exact H].
  - destruct H as (_ & -> & _). exists []. apply over_refl.
  - destruct H as (-> & _). exists []. apply over_refl.
Qed.

(** * The rules. *)
Lemma rounds_text : forall (one : qstate -> qstate -> list ppair -> Prop) (between : qstate -> qstate -> Prop) (P : char -> Prop),
  (forall s s' p, one s s' p -> exists u, over s s' u /\ Forall P u) -> (forall s s', between s s' -> s' = s) ->
  forall s s' ps, rounds one between s s' ps -> exists u, over s s' u /\ Forall P u.
Proof.
  intros one between P H1 H2 s s' ps H. induction H as [s|s s0 s1 s' p q B O _ (v & V & F)]; [exists []; split; [apply over_refl|constructor]|].
  apply H2 in B as ->. apply H1 in O as (u & U & F'). exists (u ++ v). split; [eapply over_trans; eassumption|].
  apply Forall_app. split; assumption.
Qed.
Lemma rounds_pairs : forall (one : qstate -> qstate -> list ppair -> Prop) (between : qstate -> qstate -> Prop) (P : list ppair -> Prop),
  P [] -> (forall s s' p q, one s s' p -> P q -> P (p ++ q)) ->
  forall s s' ps, rounds one between s s' ps -> P ps.
Proof. intros one between P N C s s' ps H. induction H as [s|s s0 s1 s' p q B O _ IH]; [exact N|eapply C; eassumption]. Qed.

(** What the texts of rules look like, in any context. *)
Definition letter (c : char) : Prop := (97 <= c <= 122 \/ 65 <= c <= 90)%N.
Definition text_ok (r : grule) (s s' : qstate) (u : text) : Prop :=
  match r with
  | R_inner_chr => char_text u \/ (u = [92%N] /\ fails Atomic (Q_rule (Loud R_escape)) s)
  | R_eoi => u = [] /\ q_rest s' = []
  | _ => lexical r u
  end.
(** The content of a raw string ends at the first quote that is followed by the number signs. *)
Definition raw_ok (a : atomicity) (r : grule) (s s' : qstate) (u : text) : Prop :=
  r = R_inner_raw_str -> skips a = false -> forall t rest, q_stack s = t :: rest ->
    forall v w, u = v ++ w -> w <> [] -> strip (34%N :: t) (w ++ q_rest s') = None.
(** What the pairs of rules look like. *)
Definition pair_ok (p : ppair) : Prop :=
  match pp_rule p with
  | R_expression => syn_expression p
  | R_term => syn_term p
  | R_path => exists l names args,
      pp_inner p = l ++ args /\ segments l names /\ Forall plain_name names /\ syn_args args
  | R_call | R_slice => syn_args [p]
  | R_arguments => exists ns, opt_formals [p] ns
  | R_bounded_repeat => syn_postfix p
  | R_range | R_string | R_insensitive_string => syn_terminal p
  | R_raw_string => syn_terminal p /\ raw_literal p
  | R_character => syn_character p
  | R_assignment_operator => pp_inner p = []
  | R_import | R_grammar_rule | R_grammar_doc => any_item p
  | R_rule_doc => exists d, doc_pair R_rule_doc (lit "///") p d
  | _ => True
  end.
Definition silent_ok (r : srule) (u : text) (ps : list ppair) : Prop :=
  match r with
  | S_alpha => exists c, u = [c] /\ letter c
  | S_alpha_num => exists c, u = [c] /\ (letter c \/ 48 <= c <= 57)%N
  | _ => True
  end.
Definition silent_pairs (r : srule) (ps : list ppair) : Prop :=
  match r with
  | S_node => syn_core ps
  | S_terminal => syn_core ps
  | S_overridable_operator => exists p, ps = [p] /\ In (pp_rule p) [R_tilde_operator; R_caret_operator]
  | S_prefix_operator => exists p, ps = [p] /\ prefix_op (pp_rule p)
  | S_infix_operator => exists p, ps = [p] /\ infix_op (pp_rule p)
  | S_postfix_operator => Forall syn_postfix ps
  | S_grammar_rules => Forall any_item ps
  | _ => True
  end.
Definition good (a : atomicity) (r : qrule) (s s' : qstate) (ps : list ppair) : Prop :=
  exists u, over s s' u /\
  match r with
  | Loud g => text_ok g s s' u /\ raw_ok a g s s' u /\
      (makes a g = true -> exists l, ps = [mkPPair g u (q_pos s) (q_pos s') l] /\ pair_ok (mkPPair g u (q_pos s) (q_pos s') l))
  | Silent g => silent_ok g u ps /\ (pairing a = true -> silent_pairs g ps)
  end.
Lemma good_over : forall a r s s' ps, good a r s s' ps -> exists u, over s s' u.
Proof. intros a r s s' ps (u & O & _). exists u. exact O. Qed.
Lemma pairing_makes : forall a g, pairing a = true -> makes a g = true \/ loud_kind g = K_silent.
Proof. intros a g H. unfold makes. destruct (loud_kind g); auto. Qed.
Lemma never_silent : forall g, loud_kind g <> K_silent.
Proof. intros [] H; discriminate. Qed.
(** A rule that makes a pair. *)
Lemma good_pair : forall a g s s' ps, pairing a = true -> good a (Loud g) s s' ps ->
  exists u l, over s s' u /\ text_ok g s s' u /\ ps = [mkPPair g u (q_pos s) (q_pos s') l] /\
    pair_ok (mkPPair g u (q_pos s) (q_pos s') l).
Proof.
  intros a g s s' ps P (u & O & T & _ & H). destruct (pairing_makes a g P) as [M|M]; [|destruct (never_silent _ M)].
  destruct (H M) as (l & E & K). exists u, l. auto.
Qed.
Lemma good_text : forall a g s s' ps, good a (Loud g) s s' ps -> exists u, over s s' u /\ text_ok g s s' u.
Proof. intros a g s s' ps (u & O & T & _). exists u. auto. Qed.

Ltac gaps := repeat match goal with
  | H : gap Atomic ?s ?s' |- _ => change (s' = s) in H; subst s'
  | H : gap CompoundAtomic ?s ?s' |- _ => change (s' = s) in H; subst s'
  end.
Ltac open := repeat match goal with
  | H : exists _, _ |- _ => destruct H
  | H : _ /\ _ |- _ => destruct H
  end; gaps.

(** ** Texts. *)
Lemma digit_round : forall a s s' ps, holds good a (Q_chars 48%N 57%N) s s' ps -> exists u, over s s' u /\ Forall (fun c => (48 <= c <= 57)%N) u.
Proof. intros a s s' ps ((c & R & O) & _). exists [c]. split; [exact O|]. constructor; [exact R|constructor]. Qed.
Lemma gap_atomic : forall s s', gap Atomic s s' -> s' = s.
Proof. intros s s' H. exact H. Qed.
Lemma gap_compound : forall s s', gap CompoundAtomic s s' -> s' = s.
Proof. intros s s' H. exact H. Qed.

Lemma ok_number : forall s s' ps, holds good Atomic (loud_body R_number) s s' ps -> exists u, over s s' u /\ exists n, notation u n.
Proof.
  intros s s' ps H. cbn [loud_body holds] in H. destruct H as [(O & _)|(_ & s1 & s2 & p & q & ((c & R & O) & _) & G & Y & _)].
  - exists [48%N]. split; [exact O|]. exists 0%N. split; [|split; [reflexivity|split; [discriminate|]]].
    + constructor; [lia|constructor].
    + intros r E. injection E as <-. reflexivity.
  - gaps. assert (exists u, over s1 s' u /\ Forall (fun c => (48 <= c <= 57)%N) u) as (u & U & F).
    { destruct Y as [(-> & _)|(s3 & p' & q' & X & Y & _)]; [exists []; split; [apply over_refl|constructor]|].
      apply (digit_round Atomic) in X as (u & U & F).
      apply (rounds_text _ _ _ (digit_round Atomic) gap_atomic) in Y as (v & V & F').
      exists (u ++ v). split; [eapply over_trans; eassumption|]. apply Forall_app. split; assumption. }
    exists (c :: u). split; [apply (over_trans _ _ _ _ _ O U)|]. exists (value_of_digits (c :: u)).
    split; [constructor; [lia|exact F]|]. split; [reflexivity|]. split; [discriminate|]. intros r E. injection E as -> _. lia.
Qed.
Lemma ok_integer : forall s s' ps, holds good Atomic (loud_body R_integer) s s' ps -> exists u, over s s' u /\ exists z, integer_text u z.
Proof.
  intros s s' ps H. cbn [loud_body holds] in H. destruct H as (s1 & s2 & p & q & S & G & Y & _). gaps.
  apply good_text in Y as (v & V & n & N). destruct S as [[(O & _)|(_ & O & _)]|(-> & _)].
  - exists (lit "+" ++ v). split; [eapply over_trans; eassumption|]. exists (Z.of_N n). apply (I_plus v n N).
  - exists (lit "-" ++ v). split; [eapply over_trans; eassumption|]. exists (- Z.of_N n)%Z. apply (I_minus v n N).
  - exists v. split; [exact V|]. exists (Z.of_N n). apply I_plain, N.
Qed.
Lemma ok_identifier : forall s s' ps, holds good Atomic (loud_body R_identifier) s s' ps -> exists u, over s s' u /\ identifier_text u.
Proof.
  assert (NR : forall s s' ps, holds good Atomic (Q_choice (Q_str (lit "_")) (Q_rule (Silent S_alpha_num))) s s' ps ->
    exists u, over s s' u /\ Forall name_char u).
  { intros s s' ps [(O & _)|(_ & u & O & (c & -> & L) & _)].
    - exists [95%N]. split; [exact O|]. constructor; [left; reflexivity|constructor].
    - exists [c]. split; [exact O|]. constructor; [unfold name_char, letter in *; lia|constructor]. }
  intros s s' ps H. cbn [loud_body] in H. destruct H as (s1 & s2 & p & q & X & G & Y & _). gaps.
  assert (exists c, over s s1 [c] /\ (c = 95 \/ 97 <= c <= 122 \/ 65 <= c <= 90)%N) as (c & O & C).
  { destruct X as [(O & _)|(_ & u & O & (c & -> & L) & _)].
    - exists 95%N. split; [exact O|left; reflexivity].
    - exists c. split; [exact O|]. unfold letter in L. lia. }
  assert (exists u, over s1 s' u /\ Forall name_char u) as (u & U & F).
  { destruct Y as [(-> & _)|(s3 & p' & q' & X' & Y & _)]; [exists []; split; [apply over_refl|constructor]|].
    apply NR in X' as (u & U & F). apply (rounds_text _ _ _ NR gap_atomic) in Y as (v & V & F').
    exists (u ++ v). split; [eapply over_trans; eassumption|]. apply Forall_app. split; assumption. }
  exists (c :: u). split; [apply (over_trans _ _ _ _ _ O U)|]. exists c, u. split; [reflexivity|split; assumption].
Qed.
Lemma identifier_plain : forall u, identifier_text u -> plain_name u.
Proof.
  intros u (c & r & -> & C & F). split; [discriminate|]. constructor; [unfold name_char; lia|exact F].
Qed.
Lemma ok_hex : forall a s s' ps, holds good a (loud_body R_hex_digit) s s' ps -> exists u, over s s' u /\ exists c, u = [c] /\ is_hex c.
Proof.
  intros a s s' ps H. cbn [loud_body holds] in H.
  destruct H as [((c & R & O) & _)|(_ & [((c & R & O) & _)|(_ & (c & R & O) & _)])]; exists [c]; (split; [exact O|]); exists c; (split; [reflexivity|]).
  - exists (c - 48)%N. left. split; [lia|reflexivity].
  - exists (c - 97 + 10)%N. right. left. split; [lia|reflexivity].
  - exists (c - 65 + 10)%N. right. right. split; [lia|reflexivity].
Qed.
Lemma ok_code : forall s s' ps, holds good Atomic (loud_body R_code) s s' ps ->
  exists u, over s s' u /\ exists h1 h2, u = [120%N; h1; h2] /\ is_hex h1 /\ is_hex h2.
Proof.
  intros s s' ps H. cbn [loud_body holds] in H. destruct H as (s1 & s2 & p & q & (O & _) & G & Y & _). gaps.
  destruct Y as (s3 & s4 & p' & q' & X & G & Y & _). gaps.
  apply good_text in X as (u & U & c & -> & C). apply good_text in Y as (v & V & d & -> & D).
  exists [120%N; c; d]. split; [apply (over_trans _ _ _ _ _ O (over_trans _ _ _ _ _ U V))|]. exists c, d. auto.
Qed.
Lemma opt_hex : forall s s' ps, holds good Atomic (Q_opt (Q_rule (Loud R_hex_digit))) s s' ps ->
  exists u, over s s' u /\ length u <= 1 /\ Forall is_hex u.
Proof.
  intros s s' ps [X|(-> & _)].
  - apply good_text in X as (u & U & c & -> & C). exists [c]. split; [exact U|]. split; [apply le_n|]. constructor; [exact C|constructor].
  - exists []. split; [apply over_refl|]. split; [apply Nat.le_0_l|constructor].
Qed.
Lemma ok_unicode : forall s s' ps, holds good Atomic (loud_body R_unicode) s s' ps ->
  exists u, over s s' u /\ exists t, u = [117; 123]%N ++ t ++ [125%N] /\ 1 <= length t <= 6 /\ Forall is_hex t.
Proof.
  intros s s' ps H. cbn [loud_body] in H. destruct H as (s1 & s2 & p & q & (O & _) & G & Y & _). gaps.
  destruct Y as (s3 & s4 & p' & q' & X & G & Y & _). gaps. apply good_text in X as (u & U & E). cbn [text_ok lexical] in E. subst u.
  destruct Y as (s5 & s6 & p1 & q1 & D & G & C & _). gaps. apply good_text in C as (w & W & E). cbn [text_ok lexical] in E. subst w.
  destruct D as (t1 & t2 & a1 & b1 & X1 & G & D & _). gaps. apply good_text in X1 as (u1 & U1 & c1 & -> & C1).
  destruct D as (t3 & t4 & a2 & b2 & X2 & G & D & _). gaps. apply opt_hex in X2 as (u2 & U2 & L2 & C2).
  destruct D as (t5 & t6 & a3 & b3 & X3 & G & D & _). gaps. apply opt_hex in X3 as (u3 & U3 & L3 & C3).
  destruct D as (t7 & t8 & a4 & b4 & X4 & G & D & _). gaps. apply opt_hex in X4 as (u4 & U4 & L4 & C4).
  destruct D as (t9 & t10 & a5 & b5 & X5 & G & D & _). gaps. apply opt_hex in X5 as (u5 & U5 & L5 & C5).
  apply opt_hex in D as (u6 & U6 & L6 & C6).
  exists ([117; 123]%N ++ ([c1] ++ u2 ++ u3 ++ u4 ++ u5 ++ u6) ++ [125%N]). split.
  - apply (over_trans _ _ _ _ _ O). apply (over_trans _ _ _ _ _ U). eapply over_trans; [|exact W].
    apply (over_trans _ _ _ _ _ U1), (over_trans _ _ _ _ _ U2), (over_trans _ _ _ _ _ U3), (over_trans _ _ _ _ _ U4), (over_trans _ _ _ _ _ U5), U6.
  - eexists. split; [reflexivity|]. split; [rewrite !app_length; cbn [length]; lia|].
    constructor; [exact C1|]. rewrite !Forall_app. auto.
Qed.
Lemma ok_escape : forall s s' ps, holds good Atomic (loud_body R_escape) s s' ps -> exists u, over s s' u /\ escape_syntax u.
Proof.
  intros s s' ps H. cbn [loud_body] in H. destruct H as (s1 & s2 & p & q & (O & _) & G & Y & _). gaps.
  assert (L : forall e c, over s1 s' [e] -> letter_escape e c -> exists u, over s s' u /\ escape_syntax u).
  { intros e c V E. exists [92%N; e]. split; [apply (over_trans _ _ _ _ _ O V)|]. eapply ES_letter, E. }
  cbn [holds] in Y.
  destruct Y as [(V & _)|(_ & [(V & _)|(_ & [(V & _)|(_ & [(V & _)|(_ & [(V & _)|(_ & [(V & _)|(_ & [(V & _)|(_ & [Y|(_ & Y)])])])])])])])].
  - apply (L _ _ V L_quote).
  - apply (L _ _ V L_backslash).
  - apply (L _ _ V L_return).
  - apply (L _ _ V L_newline).
  - apply (L _ _ V L_tab).
  - apply (L _ _ V L_nul).
  - apply (L _ _ V L_apostrophe).
  - apply good_text in Y as (u & V & h1 & h2 & -> & A & B). exists (92%N :: [120%N; h1; h2]).
    split; [apply (over_trans _ _ _ _ _ O V)|]. apply ES_byte; assumption.
  - apply good_text in Y as (u & V & t & -> & A & B). exists ([92%N] ++ ([117; 123]%N ++ t ++ [125%N])).
    split; [apply (over_trans _ _ _ _ _ O V)|]. apply (ES_unicode t A B).
Qed.
Lemma strip_none_head : forall c d r, strip [c] (d :: r) = None -> d <> c.
Proof. intros c d r H E. subst d. cbn [strip] in H. rewrite N.eqb_refl in H. discriminate. Qed.
Definition plain_char (c : char) : Prop := c <> 92%N /\ c <> 34%N.
Lemma plain_round : forall s s' ps,
  holds good Atomic (Q_seq (Q_not (Q_choice (Q_str [34%N]) (Q_str [92%N]))) Q_any) s s' ps ->
  exists u, over s s' u /\ Forall plain_char u.
Proof.
  intros s s' ps (s1 & s2 & p & q & (F & -> & _) & G & ((c & O) & _) & _). gaps.
  exists [c]. split; [exact O|]. apply fails_choice in F as (A & B). apply fails_str in A, B.
  destruct O as ((E & _) & _). cbn [app] in E. rewrite E in A, B. constructor; [|constructor].
  split; [eapply strip_none_head, B|eapply strip_none_head, A].
Qed.
Lemma plain_inner : forall u v, Forall plain_char u -> inner_str v -> inner_str (u ++ v).
Proof. intros u v F I. induction F as [|c u (A & B) _ IH]; [exact I|]. apply IS_plain; assumption. Qed.
Lemma ok_inner_str : forall s s' ps, holds good Atomic (loud_body R_inner_str) s s' ps -> exists u, over s s' u /\ inner_str u.
Proof.
  intros s s' ps H. cbn [loud_body] in H. destruct H as (s1 & s2 & p & q & X & G & Y & _). gaps.
  assert (exists u, over s s1 u /\ Forall plain_char u) as (u & U & F).
  { destruct X as [(-> & _)|(s3 & p' & q' & X' & Y' & _)]; [exists []; split; [apply over_refl|constructor]|].
    apply plain_round in X' as (u & U & F). apply (rounds_text _ _ _ plain_round gap_atomic) in Y' as (v & V & F').
    exists (u ++ v). split; [eapply over_trans; eassumption|]. apply Forall_app. split; assumption. }
  destruct Y as [(s3 & s4 & p' & q' & A & G & B & _)|(-> & _)].
  - gaps. apply good_text in A as (v & V & E). apply good_text in B as (w & W & I). exists (u ++ v ++ w).
    split; [apply (over_trans _ _ _ _ _ U (over_trans _ _ _ _ _ V W))|]. apply plain_inner; [exact F|]. apply IS_escape; [exact E|exact I].
  - exists u. split; [exact U|]. rewrite <- (app_nil_r u). apply plain_inner; [exact F|constructor].
Qed.
Lemma ok_inner_chr : forall s s' ps, holds good Atomic (loud_body R_inner_chr) s s' ps ->
  exists u, over s s' u /\ (char_text u \/ (u = [92%N] /\ fails Atomic (Q_rule (Loud R_escape)) s)).
Proof.
  intros s s' ps H. cbn [loud_body holds] in H. destruct H as [X|(F & (c & O) & _)].
  - apply good_text in X as (u & U & E). exists u. split; [exact U|]. left. left. exact E.
  - exists [c]. split; [exact O|]. destruct (N.eq_dec c 92) as [->|N]; [right; split; [reflexivity|exact F]|].
    left. right. exists c. auto.
Qed.
Lemma ok_string : forall s s' ps, holds good CompoundAtomic (loud_body R_string) s s' ps ->
  exists u, over s s' u /\ exists t, u = 34%N :: t ++ [34%N] /\ inner_str t.
Proof.
  intros s s' ps H. cbn [loud_body] in H. destruct H as (s1 & s2 & p & q & X & G & Y & _). gaps.
  destruct Y as (s3 & s4 & p' & q' & Y & G & Z & _). gaps.
  apply good_text in X as (u & U & E). apply good_text in Y as (v & V & I). apply good_text in Z as (w & W & E').
  cbn [text_ok lexical] in E, I, E'. subst u w. exists ([34%N] ++ v ++ [34%N]). split; [|exists v; split; [reflexivity|exact I]].
  apply (over_trans _ _ _ _ _ U (over_trans _ _ _ _ _ V W)).
Qed.
Lemma ok_insensitive : forall s s' ps, holds good CompoundAtomic (loud_body R_insensitive_string) s s' ps ->
  exists u, over s s' u /\ exists t, u = 105%N :: 34%N :: t ++ [34%N] /\ inner_str t.
Proof.
  intros s s' ps H. cbn [loud_body] in H. destruct H as (s1 & s2 & p & q & (O & _) & G & Y & _). gaps.
  apply good_text in Y as (v & V & t & -> & I). exists (105%N :: (34%N :: t ++ [34%N])).
  split; [apply (over_trans _ _ _ _ _ O V)|]. exists t. auto.
Qed.
(** An escaped apostrophe is an escape. *)
Lemma escape_apostrophe : forall s r, q_rest s = 92%N :: 39%N :: r -> fails Atomic (Q_rule (Loud R_escape)) s -> False.
Proof.
  intros [pos rest st] r E F. cbn [q_rest] in E. subst rest. revert F. apply (not_fails 40 _ _ _ (mkQ (pos + (1 + 0) + (1 + 0)) r st, [])).
  cbv - [Nat.add length]. reflexivity.
Qed.

Lemma ok_character : forall s s' ps, holds good CompoundAtomic (loud_body R_character) s s' ps ->
  exists u, over s s' u /\ exists t, u = 39%N :: t ++ [39%N] /\ char_text t.
Proof.
  intros s s' ps H. cbn [loud_body] in H. destruct H as (s1 & s2 & p & q & X & G & Y & _). gaps.
  destruct Y as (s3 & s4 & p' & q' & Y & G & Z & _). gaps.
  apply good_text in X as (u & U & E). apply good_text in Y as (v & V & I). apply good_text in Z as (w & W & E').
  cbn [text_ok lexical] in E, I, E'. subst u w. exists ([39%N] ++ v ++ [39%N]). split; [apply (over_trans _ _ _ _ _ U (over_trans _ _ _ _ _ V W))|].
  exists v. split; [reflexivity|]. destruct I as [I|(-> & F)]; [exact I|]. exfalso.
  destruct V as ((V & _) & _). destruct W as ((W & _) & _). rewrite W in V. eapply escape_apostrophe; [exact V|exact F].
Qed.
(** The text of a line. *)
Lemma line_round : forall s s' ps, holds good CompoundAtomic (Q_seq (Q_not (Q_rule (Silent S_newline))) Q_any) s s' ps ->
  exists u, over s s' u /\ Forall (fun c => c <> 10%N) u.
Proof.
  intros s s' ps (s1 & s2 & p & q & (F & -> & _) & G & ((c & O) & _) & _). gaps. exists [c]. split; [exact O|].
  constructor; [|constructor]. intros ->. destruct s as [pos rest st]. destruct O as ((E & _) & _). cbn [q_rest app] in E. subst rest. revert F.
  apply (not_fails 5 _ _ _ (mkQ (pos + (1 + 0)) (q_rest s') st, [])). cbv - [Nat.add length q_rest]. reflexivity.
Qed.
Lemma not_in : forall u, Forall (fun c => c <> 10%N) u -> ~ In 10%N u.
Proof. intros u F I. rewrite Forall_forall in F. exact (F _ I eq_refl). Qed.
Lemma ok_doc_content : forall s s' ps, holds good CompoundAtomic (loud_body R_doc_content) s s' ps ->
  exists u, over s s' u /\ ~ In 10%N u.
Proof.
  intros s s' ps H. cbn [loud_body] in H. destruct H as [(-> & _)|(s1 & p & q & X & Y & _)].
  - exists []. split; [apply over_refl|intros []].
  - apply line_round in X as (u & U & F). apply (rounds_text _ _ _ line_round gap_compound) in Y as (v & V & F').
    exists (u ++ v). split; [eapply over_trans; eassumption|]. apply not_in, Forall_app. split; assumption.
Qed.
Lemma doc_rest : forall s s' ps, holds good CompoundAtomic (Q_seq (Q_opt (Q_str (lit " "))) (Q_rule (Loud R_doc_content))) s s' ps ->
  exists u, over s s' u /\ ~ In 10%N u.
Proof.
  intros s s' ps (s1 & s2 & p & q & X & G & Y & _). gaps. apply good_text in Y as (v & V & N). cbn [text_ok lexical] in N.
  destruct X as [(O & _)|(-> & _)]; [|exists v; split; assumption]. exists (lit " " ++ v). split; [eapply over_trans; eassumption|].
  intros [E|I]; [discriminate|exact (N I)].
Qed.
Lemma ok_rule_doc : forall s s' ps, holds good CompoundAtomic (loud_body R_rule_doc) s s' ps ->
  exists u, over s s' u /\ exists t, u = lit "///" ++ t /\ ~ In 10%N t.
Proof.
  intros s s' ps H. cbn [loud_body] in H. destruct H as (s1 & s2 & p & q & (O & _) & G & Y & _). gaps.
  apply doc_rest in Y as (v & V & N). exists (lit "///" ++ v).
  split; [eapply over_trans; eassumption|exists v; split; [reflexivity|exact N]].
Qed.
Lemma ok_grammar_doc : forall s s' ps, holds good CompoundAtomic (loud_body R_grammar_doc) s s' ps ->
  exists u, over s s' u /\ exists t, u = lit "//!" ++ t /\ ~ In 10%N t.
Proof.
  intros s s' ps H. cbn [loud_body] in H. destruct H as (s1 & s2 & p & q & (O & _) & G & Y & _). gaps.
  apply doc_rest in Y as (v & V & N). exists (lit "//!" ++ v).
  split; [eapply over_trans; eassumption|exists v; split; [reflexivity|exact N]].
Qed.
(** The content of a raw string ends at the first place where the closing quote can be. *)
Definition unclosed (s : qstate) (t : text) (s' : qstate) (u : text) : Prop :=
  forall v w, u = v ++ w -> w <> [] -> strip (34%N :: t) (w ++ q_rest s') = None.
Lemma unclosed_app : forall s t s1 u s' v, over s1 s' v -> unclosed s t s1 u -> unclosed s1 t s' v -> unclosed s t s' (u ++ v).
Proof.
  intros s t s1 u s' v ((E & _) & _) A B x w X W. destruct (Nat.le_gt_cases (length u) (length x)) as [L|L].
  - assert (x = u ++ skipn (length u) x) as X'.
    { rewrite <- (firstn_skipn (length u) x) at 1. f_equal. pose proof (f_equal (firstn (length u)) X) as F.
      rewrite firstn_app, firstn_all, Nat.sub_diag in F. cbn [firstn] in F. rewrite app_nil_r in F.
      rewrite firstn_app in F. replace (length u - length x) with 0 in F by lia. cbn [firstn] in F. rewrite app_nil_r in F. symmetry. exact F. }
    rewrite X' in X. rewrite <- app_assoc in X. apply app_inv_head in X. apply (B _ _ X W).
  - assert (exists z, u = x ++ z /\ w = z ++ v /\ z <> []) as (z & -> & -> & Z).
    { clear -X L. revert u X L. induction x as [|c x IH]; intros u X L.
      - exists u. cbn [app] in X. split; [reflexivity|]. split; [symmetry; exact X|]. intros ->. cbn [length] in L. lia.
      - destruct u as [|d u]; [cbn [length] in L; lia|]. cbn [app] in X. injection X as <- X. cbn [length] in L.
        destruct (IH u X ltac:(lia)) as (z & -> & -> & Z). exists z. auto. }
    rewrite <- app_assoc, <- E. apply (A x z eq_refl Z).
Qed.
Lemma raw_round : forall a t rest s s' ps, skips a = false -> q_stack s = t :: rest ->
  holds good a (Q_seq (Q_not (Q_seq (Q_str [34%N]) Q_peek)) Q_any) s s' ps ->
  exists u, over s s' u /\ unclosed s t s' u.
Proof.
  intros a t rest s s' ps A S (s1 & s2 & p & q & (F & -> & _) & G & ((c & O) & _) & _).
  unfold gap in G. rewrite A in G. subst s2. exists [c]. split; [exact O|]. intros v w E W.
  assert (v = [] /\ w = [c]) as (-> & ->).
  { destruct v as [|d v]; [auto|]. injection E as <- E. symmetry in E. apply app_eq_nil in E as (_ & E). contradiction. }
  destruct O as ((R & _) & _). cbn [app] in *.
  destruct (strip (34%N :: t) (c :: q_rest s')) as [r|] eqn:X; [|reflexivity]. exfalso.
  rewrite <- R in X. apply strip_some in X. cbn [app] in X.
  assert (exists k t', qmatch k a (Q_seq (Q_str [34%N]) Q_peek) s = Ret (Some t')) as (k & t' & M).
  { exists 2. cbn [qmatch]. rewrite A. unfold plain_match, eat at 1. rewrite X. cbn [strip]. rewrite N.eqb_refl. cbn [qthen obind q_stack q_rest].
    rewrite S. unfold plain_match, eat. cbn [q_rest]. rewrite strip_app. cbn [qboth qthen obind]. eexists. reflexivity. }
  exact (not_fails _ _ _ _ _ M F).
Qed.
Lemma ok_inner_raw : forall a s s' ps, skips a = false -> holds good a (loud_body R_inner_raw_str) s s' ps ->
  exists u, over s s' u /\ forall t rest, q_stack s = t :: rest -> unclosed s t s' u.
Proof.
  intros a s s' ps A H. cbn [loud_body] in H.
  destruct (q_stack s) as [|t rest] eqn:S.
  { apply (holds_over good good_over) in H as (u & U); [|reflexivity]. exists u. split; [exact U|]. intros; discriminate. }
  destruct H as [(-> & _)|(s1 & p & q & X & Y & _)].
  - exists []. split; [apply over_refl|]. intros t' rest' _ v w E W. symmetry in E. apply app_eq_nil in E as (_ & E). contradiction.
  - assert (forall s1 s' q, rounds (holds good a (Q_seq (Q_not (Q_seq (Q_str [34%N]) Q_peek)) Q_any)) (gap a) s1 s' q -> q_stack s1 = t :: rest ->
      exists u, over s1 s' u /\ unclosed s1 t s' u) as RR.
    { clear - A. intros s1 s' q Y. induction Y as [s|s s0 s1 s' p q G O _ IH]; intro S.
      - exists []. split; [apply over_refl|]. intros v w E W. symmetry in E. apply app_eq_nil in E as (_ & E). contradiction.
      - unfold gap in G. rewrite A in G. subst s0. apply (raw_round a t rest) in O as (u & U & C); [|exact A|exact S].
        destruct IH as (v & V & D); [rewrite (proj2 U); exact S|]. exists (u ++ v). split; [eapply over_trans; eassumption|].
        eapply unclosed_app; eassumption. }
    apply (raw_round a t rest) in X as (u & U & C); [|exact A|exact S]. apply RR in Y as (v & V & D); [|rewrite (proj2 U); exact S].
    exists (u ++ v). split; [eapply over_trans; eassumption|]. intros t' rest' E. injection E as <- <-. eapply unclosed_app; eassumption.
Qed.

(** ** Pairs. *)
Lemma pounds_pairs : forall s s' ps, holds good CompoundAtomic (Q_rep (Q_rule (Loud R_pound))) s s' ps ->
  exists u, over s s' u /\ Forall (fun c => c = 35%N) u /\ length ps = length u /\
    Forall (fun p => pp_rule p = R_pound /\ pp_str p = lit "#") ps.
Proof.
  assert (One : forall s s' ps, holds good CompoundAtomic (Q_rule (Loud R_pound)) s s' ps ->
    exists u, over s s' u /\ Forall (fun c => c = 35%N) u /\ length ps = length u /\
      Forall (fun p => pp_rule p = R_pound /\ pp_str p = lit "#") ps).
  { intros s s' ps H. apply good_pair in H as (u & l & O & T & -> & _); [|reflexivity]. cbn [text_ok lexical] in T. subst u.
    exists [35%N]. split; [exact O|]. split; [constructor; [reflexivity|constructor]|]. split; [reflexivity|].
    constructor; [split; reflexivity|constructor]. }
  intros s s' ps [(-> & ->)|(s1 & p & q & X & Y & ->)].
  - exists []. split; [apply over_refl|]. repeat split; constructor.
  - assert (exists u, over s1 s' u /\ Forall (fun c => c = 35%N) u /\ length q = length u /\
      Forall (fun p => pp_rule p = R_pound /\ pp_str p = lit "#") q) as (v & V & F & L & P).
    { clear - Y One. induction Y as [s|s s0 s1 s' p q G O _ IH].
      - exists []. split; [apply over_refl|]. repeat split; constructor.
      - apply gap_compound in G as ->. destruct IH as (v & V & F & L & P). apply One in O as (u & U & F' & L' & P').
        exists (u ++ v). split; [eapply over_trans; eassumption|]. rewrite !Forall_app, !app_length. auto. }
    apply One in X as (u & U & F' & L' & P'). exists (u ++ v). split; [eapply over_trans; eassumption|].
    rewrite !Forall_app, !app_length. auto.
Qed.
Lemma sh_raw : forall s s' ps, holds good CompoundAtomic (loud_body R_raw_string) s s' ps ->
  exists u, over s s' u /\ forall a b,
    syn_terminal (mkPPair R_raw_string u a b ps) /\ raw_literal (mkPPair R_raw_string u a b ps).
Proof.
  intros s s' ps H. cbn [loud_body] in H.
  destruct H as (s1 & s2 & p1 & q1 & (O1 & ->) & G & H & ->). gaps.
  destruct H as (s2 & s3 & p2 & q2 & (s0 & X & ->) & G & H & ->). gaps. apply pounds_pairs in X as (h & O2 & F & L & P).
  rewrite (over_taken _ _ _ O2) in H.
  destruct H as (s3 & s4 & p3 & q3 & X & G & H & ->). gaps. apply good_pair in X as (w3 & l3 & O3 & T3 & -> & _); [|reflexivity].
  cbn [text_ok lexical] in T3. subst w3.
  destruct H as (s5 & s6 & p4 & q4 & (w4 & O4 & _ & T4 & X) & G & H & ->). gaps. destruct (X eq_refl) as (l4 & -> & _). clear X.
  pose proof (T4 eq_refl eq_refl) as T4'. clear T4. rename T4' into T4.
  destruct H as (s6 & s7 & p5 & q5 & X & G & H & ->). gaps. apply good_pair in X as (w5 & l5 & O5 & T5 & -> & _); [|reflexivity].
  cbn [text_ok lexical] in T5. subst w5.
  destruct H as (t & rest & s8 & S & O6 & -> & ->).
  assert (q_stack s6 = h :: q_stack s0) as S6.
  { rewrite (proj2 O5), (proj2 O4), (proj2 O3). reflexivity. }
  rewrite S6 in S. injection S as <- <-. rewrite (proj2 O2), (proj2 O1).
  assert (q_stack s3 = h :: q_stack s0) as S3 by (rewrite (proj2 O3); reflexivity).
  set (m := mkQ (q_pos s0) (q_rest s0) (h :: q_stack s0)) in *.
  assert (moved s s8 (lit "r" ++ h ++ [34%N] ++ w4 ++ [34%N] ++ h)) as M.
  { eapply moved_trans; [exact (proj1 O1)|]. eapply moved_trans; [exact (proj1 O2)|].
    apply (moved_trans m s3 s8 _ _ (proj1 O3)). eapply moved_trans; [exact (proj1 O4)|]. eapply moved_trans; [exact (proj1 O5)|exact (proj1 O6)]. }
  exists (lit "r" ++ h ++ [34%N] ++ w4 ++ [34%N] ++ h). split; [split; [exact M|reflexivity]|]. intros a b.
  cbn [app]. split.
  - apply Syn_raw; try reflexivity. exact P.
  - match goal with |- raw_literal (mkPPair _ _ _ _ (p2 ++ [?x; ?y; ?z])) => apply (Raw_literal a b h p2 x y z); [exact F|exact L|] end.
    cbn [pp_str]. intros v w r E W X. pose proof (T4 _ _ S3 v w E W) as N.
    destruct O5 as ((E5 & _) & _). destruct O6 as ((E6 & _) & _). rewrite E5, E6 in N. cbn [app] in N.
    assert (w ++ 34%N :: h ++ q_rest s8 = (34%N :: h) ++ r ++ q_rest s8) as Y.
    { transitivity ((w ++ 34%N :: h) ++ q_rest s8); [rewrite <- app_assoc; reflexivity|]. rewrite X. cbn [app].
      rewrite <- app_assoc. reflexivity. }
    pose proof (eq_trans (eq_sym N) (eq_trans (f_equal (strip (34%N :: h)) Y) (strip_app _ _))). discriminate.
Qed.

Lemma makes_of : forall a g, pairing a = true -> makes a g = true.
Proof. intros a g P. destruct (pairing_makes a g P) as [M|M]; [exact M|destruct (never_silent _ M)]. Qed.
Section Pairs.
Variable a : atomicity.
Hypothesis P : pairing a = true.
Lemma one : forall g s s' ps, holds good a (Q_rule (Loud g)) s s' ps ->
  exists u l, over s s' u /\ text_ok g s s' u /\ ps = [mkPPair g u (q_pos s) (q_pos s') l] /\
    pair_ok (mkPPair g u (q_pos s) (q_pos s') l).
Proof. intros. apply (good_pair a); [exact P|assumption]. Qed.
Lemma some : forall g s s' ps, holds good a (Q_rule (Silent g)) s s' ps -> silent_pairs g ps.
Proof. intros g s s' ps (u & _ & _ & H). apply H, P. Qed.
Ltac one H u l W T K := apply one in H as (u & l & W & T & -> & K).

Lemma sh_range : forall s s' ps, holds good a (loud_body R_range) s s' ps -> forall u x y, syn_terminal (mkPPair R_range u x y ps).
Proof.
  intros s s' ps H u x y. cbn [loud_body] in H. destruct H as (s1 & s2 & p1 & q1 & X & _ & H & ->).
  destruct H as (s3 & s4 & p2 & q2 & Y & _ & Z & ->). one X u1 l1 O1 T1 K1. one Y u2 l2 O2 T2 K2. one Z u3 l3 O3 T3 K3.
  apply Syn_range; [exact K1|reflexivity|exact K3].
Qed.
(** Operands. *)
Inductive tail : list ppair -> Prop :=
| Tail_nil : tail []
| Tail_cons o t l : infix_op (pp_rule o) -> syn_term t -> tail l -> tail (o :: t :: l).
Lemma tail_operands : forall l, tail l -> forall t, syn_term t -> syn_operands (t :: l).
Proof. intros l H. induction H as [|o t' l O T _ IH]; intros t T'; [apply Syn_last, T'|]. apply Syn_more; [exact T'|exact O|apply IH, T]. Qed.
Lemma tail_round : forall s s' ps q, holds good a (Q_seq (Q_rule (Silent S_infix_operator)) (Q_rule (Loud R_term))) s s' ps ->
  tail q -> tail (ps ++ q).
Proof.
  intros s s' ps q (s1 & s2 & p1 & p2 & X & _ & Y & ->) T. apply some in X as (o & -> & O). one Y u l O1 T1 K.
  apply Tail_cons; [exact O|exact K|exact T].
Qed.
Lemma rep_pairs : forall e (Q : list ppair -> Prop), Q [] -> (forall s s' p q, holds good a e s s' p -> Q q -> Q (p ++ q)) ->
  forall s s' ps, holds good a (Q_rep e) s s' ps -> Q ps.
Proof.
  intros e Q N C s s' ps [(_ & ->)|(s1 & p & q & X & Y & ->)]; [exact N|]. eapply C; [exact X|].
  exact (rounds_pairs _ _ Q N C _ _ _ Y).
Qed.
Lemma sh_expression : forall s s' ps, holds good a (loud_body R_expression) s s' ps ->
  forall u x y, syn_expression (mkPPair R_expression u x y ps).
Proof.
  intros s s' ps H u x y. cbn [loud_body] in H. destruct H as (s1 & s2 & p1 & q1 & X & _ & H & ->).
  destruct H as (s3 & s4 & p2 & q2 & Y & _ & Z & ->). one Y u2 l2 O2 T2 K2.
  apply (rep_pairs _ tail Tail_nil tail_round) in Z.
  pose proof (tail_operands _ Z _ K2) as OP.
  destruct X as [X|(_ & ->)].
  - destruct X as (t1 & t2 & p3 & q3 & A & _ & B & ->). destruct B as (t3 & t4 & p4 & q4 & B & _ & C & ->).
    one B u3 l3 O3 T3 K3. one C u4 l4 O4 T4 K4.
    rewrite <- app_assoc. apply Syn_expression.
    + destruct A as [A|(_ & ->)]; [|left; reflexivity]. right. one A u5 l5 O5 T5 K5. eexists. split; reflexivity.
    + cbn [app]. apply Syn_more; [exact K3|left; reflexivity|exact OP].
  - cbn [app]. apply (Syn_expression u x y []); [left; reflexivity|exact OP].
Qed.
Lemma forall_round : forall (Q : ppair -> Prop) e, (forall s s' p, holds good a e s s' p -> Forall Q p) ->
  forall s s' ps, holds good a (Q_rep e) s s' ps -> Forall Q ps.
Proof.
  intros Q e H. apply rep_pairs; [constructor|]. intros s s' p q X F. apply Forall_app. split; [eapply H, X|exact F].
Qed.
Lemma sh_term : forall s s' ps, holds good a (loud_body R_term) s s' ps -> forall u x y, syn_term (mkPPair R_term u x y ps).
Proof.
  intros s s' ps H u x y. cbn [loud_body] in H. destruct H as (s1 & s2 & p1 & q1 & X & _ & H & ->).
  destruct H as (s3 & s4 & p2 & q2 & Y & _ & Z & ->). apply Syn_term.
  - eapply (forall_round (fun p => prefix_op (pp_rule p))); [|exact X]. intros t t' p A. apply some in A as (o & -> & O).
    constructor; [exact O|constructor].
  - apply some in Y. exact Y.
  - eapply (forall_round syn_postfix); [|exact Z]. intros t t' p A. apply some in A. exact A.
Qed.
(** Names. *)
Lemma name_round : forall s s' ps q ns,
  holds good a (Q_seq (Q_rule (Loud R_ancestry_operator)) (Q_rule (Loud R_identifier))) s s' ps ->
  (forall p, pp_rule p = R_identifier -> plain_name (pp_str p) -> segments (p :: q) (pp_str p :: ns) /\ Forall plain_name (pp_str p :: ns)) ->
  exists ms, forall p, pp_rule p = R_identifier -> plain_name (pp_str p) ->
    segments (p :: ps ++ q) (pp_str p :: ms) /\ Forall plain_name (pp_str p :: ms).
Proof.
  intros s s' ps q ns (s1 & s2 & p1 & p2 & X & _ & Y & ->) IH. one X u1 l1 O1 T1 K1. one Y u2 l2 O2 T2 K2.
  exists (u2 :: ns). intros p R N. apply identifier_plain in T2.
  destruct (IH (mkPPair R_identifier u2 (q_pos s2) (q_pos s') l2) eq_refl T2) as (A & B). cbn [app]. split.
  - apply Seg_more; [exact R|reflexivity|exact A].
  - constructor; [exact N|exact B].
Qed.
Lemma sh_path : forall s s' ps, holds good a (loud_body R_path) s s' ps ->
  exists l names args, ps = l ++ args /\ segments l names /\ Forall plain_name names /\ syn_args args.
Proof.
  intros s s' ps H. cbn [loud_body] in H. destruct H as (s1 & s2 & p1 & q1 & X & _ & H & ->).
  destruct H as (s3 & s4 & p2 & q2 & Y & _ & Z & ->). one X u1 l1 O1 T1 K1.
  assert (exists ms, forall p, pp_rule p = R_identifier -> plain_name (pp_str p) ->
    segments (p :: p2) (pp_str p :: ms) /\ Forall plain_name (pp_str p :: ms)) as (ms & M).
  { revert Y. apply (rep_pairs _ (fun ps => exists ms, forall p, pp_rule p = R_identifier -> plain_name (pp_str p) ->
      segments (p :: ps) (pp_str p :: ms) /\ Forall plain_name (pp_str p :: ms))).
    - exists []. intros p R N. split; [apply Seg_last, R|constructor; [exact N|constructor]].
    - intros t t' p q A (ns & B). eapply name_round; eassumption. }
  destruct (M (mkPPair R_identifier u1 (q_pos s) (q_pos s1) l1) eq_refl (identifier_plain _ T1)) as (A & B).
  eexists (_ :: p2), _, q2. split; [reflexivity|]. split; [exact A|]. split; [exact B|].
  destruct Z as [[Z|(_ & Z)]|(_ & ->)]; [one Z u3 l3 O3 T3 K3; exact K3|one Z u3 l3 O3 T3 K3; exact K3|constructor].
Qed.
(** Lists with commas. *)
Lemma sh_call : forall s s' ps, holds good a (loud_body R_call) s s' ps -> forall u x y, syn_args [mkPPair R_call u x y ps].
Proof.
  intros s s' ps H u x y. cbn [loud_body] in H. destruct H as (s1 & s2 & p1 & q1 & X & _ & H & ->).
  destruct H as (s3 & s4 & p2 & q2 & Y & _ & Z & ->). one X u1 l1 O1 T1 K1. one Z u3 l3 O3 T3 K3. cbn [app].
  apply Syn_call; [reflexivity| |reflexivity].
  destruct Y as [Y|(_ & ->)]; [|constructor].
  destruct Y as (t1 & t2 & p4 & q4 & A & _ & H & ->). destruct H as (t3 & t4 & p5 & q5 & B & _ & C & ->). one A u4 l4 O4 T4 K4.
  assert (forall e, syn_expression e -> syn_actuals (e :: p5 ++ q5)) as F.
  { revert B. apply (rep_pairs _ (fun ps => forall e, syn_expression e -> syn_actuals (e :: ps ++ q5))).
    - intros e E. destruct C as [C|(_ & ->)]; [|apply Syn_actual, E]. one C u5 l5 O5 T5 K5. apply Syn_next; [exact E|reflexivity|constructor].
    - intros t t' p q (r1 & r2 & p6 & p7 & D & _ & D' & ->) IH e E. one D u6 l6 O6 T6 K6. one D' u7 l7 O7 T7 K7.
      cbn [app]. apply Syn_next; [exact E|reflexivity|]. apply IH. exact K7. }
  apply F. exact K4.
Qed.
Lemma sh_arguments : forall s s' ps, holds good a (loud_body R_arguments) s s' ps ->
  forall u x y, exists ns, opt_formals [mkPPair R_arguments u x y ps] ns.
Proof.
  intros s s' ps H u x y. cbn [loud_body] in H. destruct H as (s1 & s2 & p1 & q1 & X & _ & H & ->).
  destruct H as (s3 & s4 & p2 & q2 & Y & _ & Z & ->). one X u1 l1 O1 T1 K1. one Z u3 l3 O3 T3 K3. cbn [app].
  assert (exists ns, formals p2 ns) as (ns & F).
  { destruct Y as [Y|(_ & ->)]; [|exists []; constructor].
    destruct Y as (t1 & t2 & p4 & q4 & A & _ & H & ->). destruct H as (t3 & t4 & p5 & q5 & B & _ & C & ->). one A u4 l4 O4 T4 K4.
    assert (exists ns, forall e, pp_rule e = R_identifier -> formals (e :: p5 ++ q5) (pp_str e :: ns)) as (ns & F).
    { revert B. apply (rep_pairs _ (fun ps => exists ns, forall e, pp_rule e = R_identifier -> formals (e :: ps ++ q5) (pp_str e :: ns))).
      - exists []. intros e E. destruct C as [C|(_ & ->)]; [|apply Formals_last, E]. one C u5 l5 O5 T5 K5.
        apply Formals_more; [exact E|reflexivity|constructor].
      - intros t t' p q (r1 & r2 & p6 & p7 & D & _ & D' & ->) (ns & IH). one D u6 l6 O6 T6 K6. one D' u7 l7 O7 T7 K7.
        exists (u7 :: ns). intros e E. cbn [app]. apply Formals_more; [exact E|reflexivity|].
        exact (IH (mkPPair R_identifier u7 (q_pos r2) (q_pos t') l7) eq_refl). }
    exists (u4 :: ns). apply (F (mkPPair R_identifier u4 (q_pos s2) (q_pos t1) l4)). reflexivity. }
  exists ns. apply Opt_formals; [reflexivity|exact F|reflexivity].
Qed.
(** Bounds. *)
Lemma over_pos : forall s s' u, over s s' u -> q_pos s <= q_pos s'.
Proof. intros s s' u ((_ & E) & _). lia. Qed.
Lemma gap_pos : forall s s', gap a s s' -> q_pos s <= q_pos s'.
Proof. intros s s' G. apply gap_over in G as (w & O). eapply over_pos, O. Qed.
Lemma range_pairs : forall (T : Type) g (num : ppair -> T -> Prop),
  (forall s s' ps, holds good a (Q_rule (Loud g)) s s' ps -> exists p v, ps = [p] /\ num p v /\ pp_start p = q_pos s /\ pp_end p = q_pos s') ->
  forall s s' ps, holds good a (Q_seq (Q_opt (Q_rule (Loud g))) (Q_seq (Q_rule (Loud R_range_operator)) (Q_opt (Q_rule (Loud g))))) s s' ps ->
  exists x y, bounds num ps x y /\ exists i j, extent ps i j /\ i <= j.
Proof.
  intros T g num N s s' ps (s1 & s2 & p1 & q1 & X & G & (s3 & s4 & p2 & q2 & Y & G' & Z & ->) & ->).
  one Y u2 l2 O2 T2 K2. apply over_pos in O2. apply gap_pos in G, G'.
  destruct X as [X|(-> & ->)]; destruct Z as [Z|(-> & ->)].
  - pose proof (good_over a (Loud _) _ _ _ X) as (w1 & O1).
    pose proof (good_over a (Loud _) _ _ _ Z) as (w3 & O3). apply over_pos in O1, O3.
    apply N in X as (p & v & -> & Np & Sp & Ep). apply N in Z as (r & w & -> & Nr & Sr & Er).
    exists (Some v), (Some w). split; [apply B_both; [exact Np|reflexivity|exact Nr]|].
    exists (q_pos s), (q_pos s'). split; [|lia]. eexists _, _, _, [_; _]. split; [reflexivity|]. split; [reflexivity|auto].
  - pose proof (good_over a (Loud _) _ _ _ X) as (w1 & O1). apply over_pos in O1.
    apply N in X as (p & v & -> & Np & Sp & Ep).
    exists (Some v), None. split; [apply B_from; [exact Np|reflexivity]|].
    exists (q_pos s), (q_pos s3). split; [|lia]. eexists _, _, _, [_]. split; [reflexivity|]. split; [reflexivity|auto].
  - pose proof (good_over a (Loud _) _ _ _ Z) as (w3 & O3). apply over_pos in O3.
    apply N in Z as (r & w & -> & Nr & Sr & Er).
    exists None, (Some w). split; [apply B_to; [reflexivity|exact Nr]|].
    exists (q_pos s2), (q_pos s'). split; [|lia]. eexists _, _, _, [_]. split; [reflexivity|]. split; [reflexivity|auto].
  - exists None, None. split; [apply B_all; reflexivity|].
    exists (q_pos s2), (q_pos s3). split; [|lia]. eexists _, _, _, []. split; [reflexivity|]. split; [reflexivity|auto].
Qed.
Lemma a_number : forall s s' ps, holds good a (Q_rule (Loud R_number)) s s' ps ->
  exists p v, ps = [p] /\ number_pair p v /\ pp_start p = q_pos s /\ pp_end p = q_pos s'.
Proof. intros s s' ps H. one H u l W T K. destruct T as (n & T). eexists _, n. split; [reflexivity|]. repeat split; apply T. Qed.
Lemma an_integer : forall s s' ps, holds good a (Q_rule (Loud R_integer)) s s' ps ->
  exists p v, ps = [p] /\ integer_pair p v /\ pp_start p = q_pos s /\ pp_end p = q_pos s'.
Proof. intros s s' ps H. one H u l W T K. destruct T as (n & T). eexists _, n. split; [reflexivity|]. repeat split. exact T. Qed.
Lemma sh_bounded : forall s s' ps, holds good a (loud_body R_bounded_repeat) s s' ps ->
  forall u x y, syn_postfix (mkPPair R_bounded_repeat u x y ps).
Proof.
  intros s s' ps H u x y. cbn [loud_body] in H. destruct H as (s1 & s2 & p1 & q1 & X & _ & H & ->).
  destruct H as (s3 & s4 & p2 & q2 & Y & _ & Z & ->). one X u1 l1 O1 T1 K1. one Z u3 l3 O3 T3 K3. cbn [app].
  destruct Y as [Y|(_ & Y)].
  - apply (range_pairs N R_number number_pair a_number) in Y as (v & w & B & i & j & E & L).
    eapply Syn_bounded; [reflexivity|apply C_bounds, B|exact E|exact L|reflexivity].
  - pose proof (good_over a (Loud _) _ _ _ Y) as (w1 & O). apply over_pos in O.
    apply a_number in Y as (p & v & -> & Np & Sp & Ep).
    eapply (Syn_bounded _ _ _ _ [p] _ _ _ (q_pos s2) (q_pos s3)); [reflexivity|apply C_exact, Np| |exact O|reflexivity].
    exists p, p, [], []. split; [reflexivity|]. split; [reflexivity|auto].
Qed.
Lemma sh_slice : forall s s' ps, holds good a (loud_body R_slice) s s' ps -> forall u x y, syn_args [mkPPair R_slice u x y ps].
Proof.
  intros s s' ps H u x y. cbn [loud_body] in H. destruct H as (s1 & s2 & p1 & q1 & X & _ & H & ->). one X u1 l1 O1 T1 K1.
  assert (exists l c v w, q1 = l ++ [c] /\ bounds integer_pair l v w /\ pp_rule c = R_closing_brack) as (l & c & v & w & -> & B & C).
  { destruct H as (s3 & s4 & p2 & q2 & Y & G & (s5 & s6 & p3 & q3 & R & G' & (s7 & s8 & p4 & q4 & Y' & G'' & Z & ->) & ->) & ->).
    one Z u3 l3 O3 T3 K3.
    destruct (range_pairs Z R_integer integer_pair an_integer s2 s7 (p2 ++ p3 ++ p4)) as (v & w & B & _).
    { exists s3, s4, p2, (p3 ++ p4). split; [exact Y|]. split; [exact G|]. split; [|reflexivity]. exists s5, s6, p3, p4. auto. }
    exists (p2 ++ p3 ++ p4). eexists _, v, w. split; [rewrite <- !app_assoc; reflexivity|]. split; [exact B|reflexivity]. }
  cbn [app]. eapply Syn_slice; [reflexivity|exact B|exact C].
Qed.
(** Silent rules. *)
Lemma sh_terminal : forall s s' ps, holds good a (silent_body S_terminal) s s' ps -> syn_core ps.
Proof.
  intros s s' ps H. cbn [silent_body] in H. destruct H as [H|(_ & [H|(_ & [H|(_ & [H|(_ & H)])])])]; one H u l W T K.
  - apply Syn_terminal, K.
  - apply Syn_terminal, K.
  - apply Syn_terminal, K.
  - destruct K as (l1 & names & args & E & S & _ & A). cbn [pp_inner] in E. subst l. eapply Syn_path; eassumption.
  - apply Syn_terminal, K.
Qed.
Lemma sh_node : forall s s' ps, holds good a (silent_body S_node) s s' ps -> syn_core ps.
Proof.
  intros s s' ps H. cbn [silent_body] in H. destruct H as [H|(_ & H)]; [|apply some in H; exact H].
  destruct H as (s1 & s2 & p1 & q1 & X & _ & H & ->). destruct H as (s3 & s4 & p2 & q2 & Y & _ & Z & ->).
  one X u1 l1 O1 T1 K1. one Y u2 l2 O2 T2 K2. one Z u3 l3 O3 T3 K3. apply Syn_parens; [reflexivity|exact K2|reflexivity].
Qed.
Lemma sh_overridable : forall s s' ps, holds good a (silent_body S_overridable_operator) s s' ps ->
  exists p, ps = [p] /\ In (pp_rule p) [R_tilde_operator; R_caret_operator].
Proof.
  intros s s' ps H. cbn [silent_body] in H. destruct H as [H|(_ & H)]; one H u l W T K; eexists; (split; [reflexivity|]); cbn [pp_rule In]; tauto.
Qed.
Lemma sh_prefix : forall s s' ps, holds good a (silent_body S_prefix_operator) s s' ps -> exists p, ps = [p] /\ prefix_op (pp_rule p).
Proof.
  intros s s' ps H. cbn [silent_body] in H. destruct H as [H|(_ & H)]; one H u l W T K; eexists; (split; [reflexivity|]); [left|right]; reflexivity.
Qed.
Lemma sh_infix : forall s s' ps, holds good a (silent_body S_infix_operator) s s' ps -> exists p, ps = [p] /\ infix_op (pp_rule p).
Proof.
  intros s s' ps H. cbn [silent_body] in H. destruct H as [H|(_ & [H|(_ & [H|(_ & H)])])]; one H u l W T K; eexists; (split; [reflexivity|]).
  - right. eexists. apply Op_sequence.
  - right. eexists. apply Op_tilde.
  - right. eexists. apply Op_caret.
  - left. reflexivity.
Qed.
Lemma sh_postfix : forall s s' ps, holds good a (silent_body S_postfix_operator) s s' ps -> Forall syn_postfix ps.
Proof.
  intros s s' ps H. cbn [silent_body] in H. destruct H as (s1 & s2 & p1 & q1 & X & _ & H & ->). apply Forall_app. split.
  - destruct X as [X|(_ & ->)]; [|constructor]. apply some in X as (p & -> & O). constructor; [|constructor].
    cbn [In] in O. destruct O as [E|[E|[]]]; eapply Syn_simple; rewrite <- E; [apply Post_tilde|apply Post_caret].
  - destruct H as [H|(_ & [H|(_ & [H|(_ & H)])])]; one H u l W T K; (constructor; [|constructor]).
    + eapply Syn_simple, Post_opt.
    + eapply Syn_simple, Post_rep.
    + eapply Syn_simple, Post_once.
    + exact K.
Qed.
(** Items. *)
Lemma sh_rule : forall s s' ps, holds good a (loud_body R_grammar_rule) s s' ps ->
  forall u x y, any_item (mkPPair R_grammar_rule u x y ps).
Proof.
  intros s s' ps H u x y. cbn [loud_body] in H. destruct H as (s1 & s2 & docs & q1 & X1 & _ & H & ->).
  destruct H as (s3 & s4 & nm & q2 & X2 & _ & H & ->). destruct H as (s5 & s6 & args & q3 & X3 & _ & H & ->).
  destruct H as (s7 & s8 & asg & q4 & X4 & _ & H & ->). destruct H as (s9 & s10 & sil & body & X5 & _ & X6 & ->).
  assert (exists ds, Forall2 (doc_pair R_rule_doc (lit "///")) docs ds) as (ds & D).
  { revert X1. apply (rep_pairs _ (fun ps => exists ds, Forall2 (doc_pair R_rule_doc (lit "///")) ps ds)); [exists []; constructor|].
    intros t t' p q A (ds & F). one A u1 l1 O1 T1 K1. destruct K1 as (d & K1). exists (d :: ds). constructor; [exact K1|exact F]. }
  assert (exists name, nm = [name] /\ In (pp_rule name) [R_identifier; R_tilde_operator; R_caret_operator]) as (name & -> & N).
  { destruct X2 as [X2|(_ & X2)].
    - one X2 u1 l1 O1 T1 K1. eexists. split; [reflexivity|left; reflexivity].
    - apply some in X2 as (p & -> & I). exists p. split; [reflexivity|right; exact I]. }
  assert (exists ns, opt_formals args ns) as (ns & F).
  { destruct X3 as [X3|(_ & ->)]; [|exists []; constructor]. one X3 u1 l1 O1 T1 K1. exact K1. }
  one X4 u4 l4 O4 T4 K4. cbn [pair_ok pp_rule pp_inner] in K4. subst l4.
  assert (exists e, syn_expression e /\ rule_body body false e) as (e & E & B).
  { destruct X6 as [X6|(_ & X6)].
    - destruct X6 as (t1 & t2 & p1 & q5 & A & _ & (t3 & t4 & p2 & q6 & B & _ & C & ->) & ->).
      one A u1 l1 O1 T1 K1. one B u2 l2 O2 T2 K2. one C u3 l3 O3 T3 K3. eexists. split; [exact K2|]. apply Body_braces; reflexivity.
    - one X6 u1 l1 O1 T1 K1. eexists. split; [exact K1|]. apply Body_plain. reflexivity. }
  assert (exists silent, rule_body (sil ++ body) silent e) as (silent & B').
  { destruct X5 as [X5|(_ & ->)]; [|exists false; exact B]. one X5 u1 l1 O1 T1 K1. exists true. apply Body_silent; [reflexivity|exact B]. }
  eapply Any_rule; [|exact E]. cbn [app]. eapply Rule_syntax; [exact D|exact N|exact F|reflexivity|reflexivity|exact B'].
Qed.
Lemma sh_import : forall s s' ps, holds good a (loud_body R_import) s s' ps ->
  forall u x y, any_item (mkPPair R_import u x y ps).
Proof.
  intros s s' ps H u x y. cbn [loud_body] in H. destruct H as (s1 & s2 & p1 & q1 & (_ & ->) & _ & H & ->).
  destruct H as (s3 & s4 & p2 & q2 & X & _ & H & ->). destruct H as (s5 & s6 & fs & als & Y & _ & Z & ->).
  one X u1 l1 O1 T1 K1. destruct K1 as (l & names & args & E & S & N & A). cbn [pp_inner] in E. subst l1.
  assert (exists file, opt_file fs file) as (file & F).
  { destruct Y as [Y|(_ & ->)]; [|exists None; constructor]. destruct Y as (t1 & t2 & p3 & q3 & (_ & ->) & _ & Y & ->).
    one Y u2 l2 O2 T2 K2. destruct T2 as (t & -> & I). eexists. apply (In_file t _ _ _ I). }
  assert (exists alias, opt_alias als alias) as (alias & L).
  { destruct Z as [Z|(_ & ->)]; [|exists None; constructor]. destruct Z as (t1 & t2 & p3 & q3 & (_ & ->) & _ & Z & ->).
    one Z u2 l2 O2 T2 K2. eexists. apply As_alias. reflexivity. }
  apply Any_use. cbn [app]. eapply Any_import; eassumption.
Qed.
Lemma sh_file : forall s s' ps, holds good a (silent_body S_grammar_rules) s s' ps -> Forall any_item ps.
Proof.
  intros s s' ps H. cbn [silent_body] in H. destruct H as (s1 & s2 & p1 & q1 & (_ & ->) & _ & H & ->).
  destruct H as (s3 & s4 & p2 & q2 & X1 & _ & H & ->). destruct H as (s5 & s6 & p3 & q3 & X2 & _ & H & ->).
  destruct H as (s7 & s8 & p4 & q4 & X3 & _ & H & ->). destruct H as (s9 & s10 & p5 & q5 & X4 & _ & X5 & ->).
  cbn [app]. rewrite !Forall_app. split; [|split; [|split; [|split]]].
  - eapply forall_round; [|exact X1]. intros t t' p A. one A u l W T K. constructor; [exact K|constructor].
  - eapply forall_round; [|exact X2]. intros t t' p A. one A u l W T K. constructor; [exact K|constructor].
  - one X3 u l W T K. constructor; [exact K|constructor].
  - eapply forall_round; [|exact X4]. intros t t' p [A|(_ & A)]; one A u l W T K; (constructor; [exact K|constructor]).
  - one X5 u l W T K. constructor; [apply Any_eoi; reflexivity|constructor].
Qed.
End Pairs.

(** ** All rules. *)
Lemma wrap_loud : forall a g s s' ps u, over s s' u ->
  (makes a g = true -> pair_ok (mkPPair g u (q_pos s) (q_pos s') ps)) ->
  makes a g = true -> exists l, wrap a (Loud g) s s' ps = [mkPPair g u (q_pos s) (q_pos s') l] /\
    pair_ok (mkPPair g u (q_pos s) (q_pos s') l).
Proof.
  intros a g s s' ps u O K M. exists ps. cbn [wrap]. rewrite M, (over_taken _ _ _ O). split; [reflexivity|apply K, M].
Qed.
(** The rules whose texts are of interest. *)
Lemma loud_texts : forall a g s s' ps, holds good (inside_of a (Loud g)) (loud_body g) s s' ps ->
  exists u, over s s' u /\ text_ok g s s' u /\ raw_ok a g s s' u /\
    (g = R_raw_string -> forall x y, syn_terminal (mkPPair g u x y ps) /\ raw_literal (mkPPair g u x y ps)).
Proof.
  intros a g s s' ps H.
  assert (forall u, over s s' u -> text_ok g s s' u -> g <> R_inner_raw_str -> g <> R_raw_string ->
    exists u, over s s' u /\ text_ok g s s' u /\ raw_ok a g s s' u /\
    (g = R_raw_string -> forall x y, syn_terminal (mkPPair g u x y ps) /\ raw_literal (mkPPair g u x y ps))) as Fin.
  { intros u O T N M. exists u. split; [exact O|]. split; [exact T|]. split; [intros E; destruct (N E)|intros E; destruct (M E)]. }
  pose proof (fun S => holds_over good good_over _ _ _ _ _ S H) as G.
  destruct g; cbn [inside_of loud_kind] in H;
    try (destruct (G eq_refl) as (u & O); apply (Fin u O); [exact I|discriminate|discriminate]);
    try (destruct H as (O & _); apply (Fin _ O); [reflexivity|discriminate|discriminate]).
  - destruct H as (s1 & s2 & p & q & (O & _) & Gp & (_ & -> & _) & _). gaps. apply (Fin _ O); [reflexivity|discriminate|discriminate].
  - apply ok_number in H as (u & O & T). apply (Fin u O); [exact T|discriminate|discriminate].
  - apply ok_integer in H as (u & O & T). apply (Fin u O); [exact T|discriminate|discriminate].
  - apply ok_identifier in H as (u & O & T). apply (Fin u O); [exact T|discriminate|discriminate].
  - apply sh_raw in H as (u & O & T). exists u. split; [exact O|]. split; [exact I|]. split; [discriminate|intros _; exact T].
  - destruct (skips a) eqn:E.
    + destruct (G eq_refl) as (u & O). exists u. split; [exact O|]. split; [exact I|].
      split; [intros _ F; rewrite E in F; discriminate|discriminate].
    + pose proof (ok_inner_raw _ _ _ _ E H) as (u & O & T). exists u. split; [exact O|]. split; [exact I|].
      split; [|discriminate]. intros _ _ t rest S v w D W. exact (T t rest S v w D W).
  - apply ok_string in H as (u & O & T). apply (Fin u O); [exact T|discriminate|discriminate].
  - apply ok_insensitive in H as (u & O & T). apply (Fin u O); [exact T|discriminate|discriminate].
  - apply ok_character in H as (u & O & T). apply (Fin u O); [exact T|discriminate|discriminate].
  - apply ok_inner_str in H as (u & O & T). apply (Fin u O); [exact T|discriminate|discriminate].
  - apply ok_inner_chr in H as (u & O & T). apply (Fin u O); [exact T|discriminate|discriminate].
  - apply ok_escape in H as (u & O & T). apply (Fin u O); [exact T|discriminate|discriminate].
  - apply ok_code in H as (u & O & T). apply (Fin u O); [exact T|discriminate|discriminate].
  - apply ok_unicode in H as (u & O & T). apply (Fin u O); [exact T|discriminate|discriminate].
  - apply ok_hex in H as (u & O & T). apply (Fin u O); [exact T|discriminate|discriminate].
  - apply ok_doc_content in H as (u & O & T). apply (Fin u O); [exact T|discriminate|discriminate].
  - apply ok_rule_doc in H as (u & O & T). apply (Fin u O); [exact T|discriminate|discriminate].
  - apply ok_grammar_doc in H as (u & O & T). apply (Fin u O); [exact T|discriminate|discriminate].
  - destruct H as (-> & _ & E). apply (Fin [] (over_refl s)); [split; [reflexivity|exact E]|discriminate|discriminate].
Qed.
Lemma doc_of : forall r m u x y l, (exists t, u = m ++ t /\ ~ In 10%N t) -> exists d, doc_pair r m (mkPPair r u x y l) d.
Proof.
  intros r m u x y l (t & -> & _). exists (Model_Grammar.trim t). split; [reflexivity|]. exists t. split; [reflexivity|]. apply trim_spec. reflexivity.
Qed.
Lemma good_closed : forall a r s s' ps, holds good (inside_of a r) (body_of r) s s' ps -> good a r s s' (wrap a r s s' ps).
Proof.
  intros a [g|g] s s' ps H.
  - cbn [body_of] in H. destruct (loud_texts a g s s' ps H) as (u & O & T & W & S). exists u. split; [exact O|].
    split; [exact T|]. split; [exact W|]. apply wrap_loud; [exact O|]. intros M.
    destruct g; try exact I; cbn [inside_of loud_kind] in H; unfold makes in M; cbn [loud_kind] in M; cbn [pair_ok pp_rule].
    + apply (sh_import a M _ _ _ H).
    + apply (sh_rule a M _ _ _ H).
    + destruct H as (_ & ->). reflexivity.
    + apply (sh_arguments a M _ _ _ H).
    + apply (sh_expression a M _ _ _ H).
    + apply (sh_term a M _ _ _ H).
    + apply (sh_bounded a M _ _ _ H).
    + apply (sh_path a M _ _ _ H).
    + apply (sh_call a M _ _ _ H).
    + apply (sh_slice a M _ _ _ H).
    + apply S. reflexivity.
    + destruct T as (t & -> & I). apply Syn_string, I.
    + destruct T as (t & -> & I). apply Syn_insensitive, I.
    + apply (sh_range a M _ _ _ H).
    + destruct T as (t & -> & I). apply Syn_character, I.
    + apply doc_of, T.
    + destruct (doc_of R_grammar_doc (lit "//!") u (q_pos s) (q_pos s') ps T) as (d & D). eapply Any_doc, D.
  - cbn [body_of] in H. assert (exists u, over s s' u) as (u & O).
    { apply (holds_over good good_over _ _ _ _ _) in H; [exact H|destruct g; reflexivity]. }
    exists u. split; [exact O|]. cbn [wrap]. split.
    + destruct g; try exact I; cbn [silent_ok]; cbn [silent_body inside_of] in H.
      * destruct H as [((c & C & O') & _)|(_ & (c & C & O') & _)]; exists c;
          (split; [eapply over_same; eassumption|unfold letter; lia]).
      * destruct H as [(v & O' & (c & -> & L) & _)|(_ & (c & C & O') & _)]; exists c;
          (split; [eapply over_same; eassumption|]); [left; exact L|right; exact C].
    + intros M. destruct g; try exact I; cbn [silent_pairs]; cbn [inside_of] in H.
      * apply (sh_file a M _ _ _ H).
      * apply (sh_node a M _ _ _ H).
      * apply (sh_terminal a M _ _ _ H).
      * apply (sh_overridable a M _ _ _ H).
      * apply (sh_prefix a M _ _ _ H).
      * apply (sh_infix a M _ _ _ H).
      * apply (sh_postfix a M _ _ _ H).
Qed.
Lemma file_items : forall k input s ps, qparse k (Silent S_grammar_rules) input = Ret (Some (s, ps)) -> Forall any_item ps.
Proof.
  intros k input s ps H. unfold qparse in H. apply (holds_sound good good_closed) in H as (u & _ & _ & K). apply K. reflexivity.
Qed.
