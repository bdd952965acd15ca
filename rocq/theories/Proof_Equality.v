(** Equality and hashes of syntax trees. *)
From Coq Require Import String List NArith ZArith Arith Bool Lia.
From Verif Require Import Model_Text Model_Position Model_Span Model_Stack Model_Tracker Model_Node Model_Equality
  Spec_Text Spec_Peg Spec_Run Spec_Getter Spec_Yield Spec_Equality Spec_Moved Proof_Text Proof_Pairs Proof_Yield Proof_Fuel Proof_Moved.
Import ListNotations.
Open Scope list_scope.

Lemma span_eqb_spec : forall a b, span_eqb a b = true <-> same_place a b.
Proof.
  intros a b. unfold span_eqb, same_place, str_ptr_eq. rewrite !andb_true_iff, N.eqb_eq, !Nat.eqb_eq. tauto.
Qed.
Lemma newline_eqb_spec : forall a b, newline_eqb a b = true <-> a = b.
Proof. intros [] []; cbn; split; congruence. Qed.

(** [value_eqb] on lists. *)
Fixpoint values_eqb (l k : list value) : bool :=
  match l, k with
  | [], [] => true
  | x :: l', y :: k' => value_eqb x y && values_eqb l' k'
  | _, _ => false
  end.
Lemma rep_eqb : forall l k, value_eqb (VRep l) (VRep k) = values_eqb l k.
Proof. reflexivity. Qed.
Lemma seq_eqb : forall l k, value_eqb (VSeq l) (VSeq k) = values_eqb l k.
Proof. reflexivity. Qed.
Fixpoint values_calls (l : list value) : option (list hash_call) :=
  match l with
  | [] => Some []
  | x :: r => match hash_calls x, values_calls r with Some a, Some b => Some (a ++ b) | _, _ => None end
  end.
Lemma rep_calls : forall l, hash_calls (VRep l) = option_map (cons (H_usize (N.of_nat (length l)))) (values_calls l).
Proof. reflexivity. Qed.
Lemma seq_calls : forall l, hash_calls (VSeq l) = values_calls l.
Proof. reflexivity. Qed.

Section Same.
Variable z : span.
Definition alike (v w : value) : Prop := with_span z v = with_span z w /\ Forall2 same_place (spans v) (spans w).

(** The same shape has as many spans. *)
Lemma shape_length : forall v w, with_span z v = with_span z w -> length (spans v) = length (spans w).
Proof.
  assert (L : forall l k, Forall (fun v => forall w, with_span z v = with_span z w -> length (spans v) = length (spans w)) l ->
    map (with_span z) l = map (with_span z) k -> length (flat_map spans l) = length (flat_map spans k)).
  { intros l k F. revert k. induction F as [|v l H F IH]; intros [|w k] E; try discriminate E; [reflexivity|]. cbn [map] in E. injection E as E1 E2.
    cbn [flat_map]. rewrite !app_length. rewrite (H w E1), (IH k E2). reflexivity. }
  induction v using value_ind'; intros w E; destruct w as [|y|b|d|w|y|w|k|[w|]|k|j w|q w b]; try discriminate E; cbn [with_span spans] in *; try reflexivity;
    injection E; intros; subst; rewrite ?app_length; cbn [length]; eauto.
Qed.
Lemma forall2_split : forall (A : Type) (R : A -> A -> Prop) a b c d, length a = length c -> Forall2 R (a ++ b) (c ++ d) -> Forall2 R a c /\ Forall2 R b d.
Proof.
  intros A R a. induction a as [|x a IH]; intros b [|y c] d L F; try discriminate L; cbn [app] in F; [split; [constructor|exact F]|].
  inversion F; subst. destruct (IH b c d) as (Q1 & Q2); [injection L as L; exact L|assumption|]. split; [constructor; assumption|exact Q2].
Qed.
Lemma eqb_alike : forall v w, value_eqb v w = true <-> alike v w.
Proof.
  assert (L : forall l k, Forall (fun v => forall w, value_eqb v w = true <-> alike v w) l ->
    (values_eqb l k = true <-> map (with_span z) l = map (with_span z) k /\ Forall2 same_place (flat_map spans l) (flat_map spans k))).
  { intros l k F. revert k. induction F as [|v l H F IH]; intros [|w k]; cbn [values_eqb map flat_map].
    - split; [split; [reflexivity|constructor]|reflexivity].
    - split; [discriminate|intros (E & _); discriminate E].
    - split; [discriminate|intros (E & _); discriminate E].
    - rewrite andb_true_iff, H, IH. split.
      + intros ((E1 & F1) & E2 & F2). split; [congruence|apply Forall2_app; assumption].
      + intros (E & F1). injection E as E1 E2. apply forall2_split in F1; [|apply shape_length, E1]. unfold alike. tauto. }
  unfold alike in *.
  induction v using value_ind'; intros w.
  - destruct w as [|y|b|d|w|y|w|k|[w|]|k|j w|q w b]; cbn [value_eqb with_span spans]; try (split; [discriminate|intros (E & _); discriminate E]).
    split; [split; [reflexivity|constructor]|reflexivity].
  - destruct w as [|y|b|d|w|y|w|k|[w|]|k|j w|q w b]; cbn [value_eqb with_span spans]; try (split; [discriminate|intros (E & _); discriminate E]).
    rewrite text_eqb_eq. split; [intros ->; split; [reflexivity|constructor]|intros (E & _); congruence].
  - destruct w as [|y|b|d|w|y|w|k|[w|]|k|j w|q w b]; cbn [value_eqb with_span spans]; try (split; [discriminate|intros (E & _); discriminate E]).
    rewrite span_eqb_spec. split; [intro S; split; [reflexivity|constructor; [exact S|constructor]]|intros (_ & F); inversion F; assumption].
  - destruct w as [|y|b|d|w|y|w|k|[w|]|k|j w|q w b]; cbn [value_eqb with_span spans]; try (split; [discriminate|intros (E & _); discriminate E]).
    rewrite N.eqb_eq. split; [intros ->; split; [reflexivity|constructor]|intros (E & _); congruence].
  - destruct w as [|y|b|d|w|y|w|k|[w|]|k|j w|q w b]; cbn [value_eqb with_span spans]; try (split; [discriminate|intros (E & _); discriminate E]).
    rewrite IHv. split; intros (E & F); (split; [congruence|exact F]).
  - destruct w as [|y|b|d|w|y|w|k|[w|]|k|j w|q w b]; cbn [value_eqb with_span spans]; try (split; [discriminate|intros (E & _); discriminate E]).
    rewrite newline_eqb_spec. split; [intros ->; split; [reflexivity|constructor]|intros (E & _); congruence].
  - destruct w as [|y|b|d|w|y|w|k|[w|]|k|j w|q w b]; cbn [value_eqb with_span spans]; try (split; [discriminate|intros (E & _); discriminate E]).
    rewrite IHv. split; intros (E & F); (split; [congruence|exact F]).
  - destruct w as [|y|b|d|w|y|w|k|[w|]|k|j w|q w b]; try (split; [discriminate|intros (E & _); discriminate E]).
    rewrite rep_eqb. cbn [with_span spans]. rewrite (L l k H). split; intros (E & F); (split; [congruence|exact F]).
  - destruct w as [|y|b|d|w|y|w|k|[w|]|k|j w|q w b]; cbn [value_eqb with_span spans]; try (split; [discriminate|intros (E & _); discriminate E]).
    split; [split; [reflexivity|constructor]|reflexivity].
  - destruct w as [|y|b|d|w|y|w|k|[w|]|k|j w|q w b]; cbn [value_eqb with_span spans]; try (split; [discriminate|intros (E & _); discriminate E]).
    rewrite IHv. split; intros (E & F); (split; [congruence|exact F]).
  - destruct w as [|y|b|d|w|y|w|k|[w|]|k|j w|q w b]; try (split; [discriminate|intros (E & _); discriminate E]).
    rewrite seq_eqb. cbn [with_span spans]. rewrite (L l k H). split; intros (E & F); (split; [congruence|exact F]).
  - destruct w as [|y|b|d|w|y|w|k|[w|]|k|j w|q w b]; cbn [value_eqb with_span spans]; try (split; [discriminate|intros (E & _); discriminate E]).
    rewrite andb_true_iff, Nat.eqb_eq, IHv. split; [intros (-> & E & F)|intros (E & F)]; [split; [congruence|exact F]|].
    injection E as -> E. tauto.
  - destruct w as [|y|b|d|w|y|w|k|[w|]|k|j w|q w b]; cbn [value_eqb with_span spans]; try (split; [discriminate|intros (E & _); discriminate E]).
    rewrite !andb_true_iff, N.eqb_eq, IHv, span_eqb_spec. split.
    + intros ((-> & E & F) & S). split; [congruence|]. apply Forall2_app; [exact F|]. constructor; [exact S|constructor].
    + intros (E & F). injection E as -> E. apply forall2_split in F; [|apply shape_length, E]. destruct F as (F & S). inversion S; subst. tauto.
Qed.
End Same.

(** At most one set of calls: equal values are hashed the same. *)
Lemma same_hash_span : forall a b, same_place a b -> hash_span a = hash_span b.
Proof. intros a b (A & B & C & D). unfold hash_span. rewrite A, B, C, D. reflexivity. Qed.
Lemma eqb_calls : forall v w, value_eqb v w = true -> hash_calls v = hash_calls w.
Proof.
  assert (L : forall l k, Forall (fun v => forall w, value_eqb v w = true -> hash_calls v = hash_calls w) l ->
    values_eqb l k = true -> values_calls l = values_calls k /\ length l = length k).
  { intros l k F. revert k. induction F as [|v l H F IH]; intros [|w k] E; cbn [values_eqb] in E; try discriminate E; [auto|].
    apply andb_true_iff in E. destruct E as (E1 & E2). cbn [values_calls length]. destruct (IH k E2) as (-> & ->). rewrite (H w E1). auto. }
  induction v using value_ind'; intros w E; destruct w as [|y|b|d|w|y|w|k|[w|]|k|j w|q w b]; try discriminate E.
  - reflexivity.
  - apply text_eqb_eq in E. subst. reflexivity.
  - apply span_eqb_spec in E. cbn [hash_calls]. f_equal. apply same_hash_span, E.
  - cbn [value_eqb] in E. apply N.eqb_eq in E. subst. reflexivity.
  - exact (IHv w E).
  - cbn [value_eqb] in E. apply newline_eqb_spec in E. subst. reflexivity.
  - exact (IHv w E).
  - rewrite rep_eqb in E. destruct (L l k H E) as (A & B). rewrite !rep_calls, A, B. reflexivity.
  - reflexivity.
  - cbn [value_eqb hash_calls] in *. rewrite (IHv w E). reflexivity.
  - rewrite seq_eqb in E. destruct (L l k H E) as (A & B). rewrite !seq_calls, A. reflexivity.
  - cbn [value_eqb hash_calls] in *. apply andb_true_iff in E. destruct E as (E1 & E2). apply Nat.eqb_eq in E1. subst. rewrite (IHv w E2). reflexivity.
  - reflexivity.
Qed.

(** Values without a hash. *)
Lemma no_calls : forall v, hash_calls v = None <-> has_rule v.
Proof.
  assert (L : forall l, Forall (fun v => hash_calls v = None <-> has_rule v) l -> (values_calls l = None <-> exists c, In c l /\ has_rule c)).
  { intros l F. induction F as [|v l H F IH]; cbn [values_calls].
    - split; [discriminate|intros (c & [] & _)].
    - split.
      + intro E. destruct (hash_calls v) eqn:Ev; [|exists v; split; [left; reflexivity|apply H; reflexivity]].
        destruct (values_calls l); [discriminate E|]. destruct (proj1 IH eq_refl) as (c & I & R). exists c. split; [right; exact I|exact R].
      + intros (c & [<-|I] & R); [rewrite (proj2 H R); reflexivity|]. rewrite (proj2 IH (ex_intro _ c (conj I R))). destruct (hash_calls v); reflexivity. }
  assert (O : forall (A B : Type) (f : A -> B) o, option_map f o = None <-> o = None) by (intros A B f [x|]; cbn; split; congruence).
  induction v using value_ind'; try (split; [discriminate|intro R; inversion R]; fail).
  - cbn [hash_calls]. rewrite IHv. split; [apply HR_positive|intro R; inversion R; assumption].
  - cbn [hash_calls]. rewrite IHv. split; [apply HR_push|intro R; inversion R; assumption].
  - rewrite rep_calls, O, (L l H). split; [intros (c & I & R); eapply HR_rep; eassumption|intro R; inversion R; eauto].
  - cbn [hash_calls]. rewrite O, IHv. split; [apply HR_some|intro R; inversion R; assumption].
  - rewrite seq_calls, (L l H). split; [intros (c & I & R); eapply HR_seq; eassumption|intro R; inversion R; eauto].
  - cbn [hash_calls]. rewrite O, IHv. split; [apply HR_choice|intro R; inversion R; assumption].
  - split; [constructor|reflexivity].
Qed.

(** The calls of a value of a type end where the value ends: different values are hashed differently. *)
Lemma unit_value : forall env n w, value_of env n VUnit -> value_of env n w -> w = VUnit.
Proof.
  intros env n w V W. inversion V; subst; inversion W; subst; try reflexivity; exfalso; cbn [In] in *;
    repeat match goal with H : _ \/ _ |- _ => destruct H end; try congruence; try contradiction.
Qed.
Lemma calls_prefix : forall env v n w a b x y, value_of env n v -> value_of env n w ->
  hash_calls v = Some a -> hash_calls w = Some b -> a ++ x = b ++ y -> value_eqb v w = true /\ x = y.
Proof.
  intro env.
  assert (Lists : forall l, Forall (fun v => forall n w a b x y, value_of env n v -> value_of env n w ->
      hash_calls v = Some a -> hash_calls w = Some b -> a ++ x = b ++ y -> value_eqb v w = true /\ x = y) l ->
    forall ns k a b x y, Forall2 (value_of env) ns l -> Forall2 (value_of env) ns k ->
      values_calls l = Some a -> values_calls k = Some b -> a ++ x = b ++ y -> values_eqb l k = true /\ x = y).
  { intros l F. induction F as [|v l H F IH]; intros ns k a b x y Fl Fk A B E; inversion Fl; subst; inversion Fk; subst; cbn [values_calls values_eqb] in *.
    - injection A as <-. injection B as <-. auto.
    - destruct (hash_calls v) as [a1|] eqn:A1; [|discriminate A]. destruct (values_calls l) as [a2|] eqn:A2; [|discriminate A]. injection A as <-.
      match goal with B : match hash_calls ?w with _ => _ end = Some b |- _ => destruct (hash_calls w) as [b1|] eqn:B1; [|discriminate B] end.
      match goal with B : match values_calls ?w with _ => _ end = Some b |- _ => destruct (values_calls w) as [b2|] eqn:B2; [|discriminate B] end.
      injection B as <-. rewrite <- !app_assoc in E.
      edestruct H as (Q1 & Q2); [eassumption|eassumption|reflexivity|exact B1|exact E|]. rewrite Q1.
      edestruct IH as (Q3 & Q4); [eassumption|eassumption|reflexivity|exact B2|exact Q2|]. auto. }
  induction v using value_ind'; intros n w a b x y V W A B E.
  - assert (w = VUnit) as -> by (eapply unit_value; eassumption).
    injection A as <-. injection B as <-. auto.
  - inversion V; subst. inversion W; subst; try (exfalso; cbn [In] in *; repeat match goal with H : _ \/ _ |- _ => destruct H end; (congruence || contradiction)).
    injection A as <-. injection B as <-. cbn [app value_eqb] in *. injection E as -> E. split; [apply text_eqb_eq; reflexivity|exact E].
  - assert (exists sq, w = VSpan sq) as (sq & ->).
    { inversion V; subst; inversion W; subst; eauto; exfalso; cbn [In] in *; repeat match goal with H : _ \/ _ |- _ => destruct H end; (congruence || contradiction). }
    injection A as <-. injection B as <-. cbn [app hash_span value_eqb] in *. injection E as E1 E2 E3 E4 E5.
    apply Nat2N.inj in E2, E3, E4. split; [apply span_eqb_spec; repeat split; assumption|exact E5].
  - assert (exists d, w = VChar d) as (d & ->).
    { inversion V; subst; inversion W; subst; eauto; exfalso; cbn [In] in *; repeat match goal with H : _ \/ _ |- _ => destruct H end; (congruence || contradiction). }
    injection A as <-. injection B as <-. cbn [app value_eqb] in *. injection E as -> E. split; [apply N.eqb_refl|exact E].
  - inversion V; subst. inversion W; subst; try (exfalso; cbn [In] in *; repeat match goal with H : _ \/ _ |- _ => destruct H end; (congruence || contradiction)). cbn [hash_calls value_eqb] in *. eapply IHv; eassumption.
  - inversion V; subst. inversion W; subst; try (exfalso; cbn [In] in *; repeat match goal with H : _ \/ _ |- _ => destruct H end; (congruence || contradiction)).
    injection A as <-. injection B as <-. cbn [app hash_newline value_eqb] in *. injection E as E1 E. split; [|exact E].
    repeat match goal with z : newline_type |- _ => destruct z end; try discriminate E1; reflexivity.
  - inversion V; subst. inversion W; subst; try (exfalso; cbn [In] in *; repeat match goal with H : _ \/ _ |- _ => destruct H end; (congruence || contradiction)). cbn [hash_calls value_eqb] in *. eapply IHv; eassumption.
  - inversion V as [| | | | | | | | | | | | | | |n0 tr lo hi vs Fv| | | | |]; subst. inversion W as [| | | | | | | | | | | | | | |? ? ? ? ws Fw| | | | |]; subst;
      try (exfalso; cbn [In] in *; repeat match goal with H : _ \/ _ |- _ => destruct H end; (congruence || contradiction)).
    rewrite rep_calls in A, B. rewrite rep_eqb. destruct (values_calls l) as [a1|] eqn:A1; [|discriminate A]. destruct (values_calls ws) as [b1|] eqn:B1; [|discriminate B].
    cbn [option_map] in A, B. injection A as <-. injection B as <-. cbn [app] in E. injection E as E1 E. apply Nat2N.inj in E1.
    eapply (Lists l H (repeat n0 (length l))); [| |exact A1|exact B1|exact E].
    + clear - Fv. induction Fv; cbn [length repeat]; constructor; assumption.
    + rewrite E1. clear - Fw. induction Fw; cbn [length repeat]; constructor; assumption.
  - inversion V; subst. inversion W; subst; try (exfalso; cbn [In] in *; repeat match goal with H : _ \/ _ |- _ => destruct H end; (congruence || contradiction)); cbn [hash_calls] in *.
    + injection A as <-. injection B as <-. injection E as E. auto.
    + destruct (hash_calls _); [|discriminate B]. injection A as <-. injection B as <-. discriminate E.
  - inversion V; subst. inversion W; subst; try (exfalso; cbn [In] in *; repeat match goal with H : _ \/ _ |- _ => destruct H end; (congruence || contradiction)); cbn [hash_calls value_eqb] in *.
    + destruct (hash_calls v); [|discriminate A]. injection A as <-. injection B as <-. discriminate E.
    + destruct (hash_calls v) as [a1|] eqn:A1; [|discriminate A]. cbn [option_map] in A. injection A as <-.
      match goal with B : option_map _ (hash_calls ?w) = _ |- _ => destruct (hash_calls w) as [b1|] eqn:B1; [|discriminate B] end. injection B as <-. injection E as E. eapply IHv; eassumption || reflexivity.
  - inversion V as [| | | | | | | | | | | | | | | | | |fs vs Fv| |]; subst. inversion W as [| | | | | | | | | | | | | | | | | |? ws Fw| |]; subst;
      try (exfalso; cbn [In] in *; repeat match goal with H : _ \/ _ |- _ => destruct H end; (congruence || contradiction)).
    rewrite seq_calls in A, B. rewrite seq_eqb. eapply (Lists l H (map fst fs)); [| |exact A|exact B|exact E].
    + clear - Fv. induction Fv; cbn [map]; constructor; assumption.
    + clear - Fw. induction Fw; cbn [map]; constructor; assumption.
  - inversion V as [| | | | | | | | | | | | | | | | | | |ns i0 m c N Vc|]; subst. inversion W as [| | | | | | | | | | | | | | | | | | |? j m2 w' N2 Wc|]; subst;
      try (exfalso; cbn [In] in *; repeat match goal with H : _ \/ _ |- _ => destruct H end; (congruence || contradiction)). cbn [hash_calls value_eqb] in *.
    destruct (hash_calls v) as [a1|] eqn:A1; [|discriminate A]. destruct (hash_calls w') as [b1|] eqn:B1; [|discriminate B].
    cbn [option_map] in A, B. injection A as <-. injection B as <-. cbn [app] in E. injection E as E1 E. apply Nat2N.inj in E1. subst j.
    rewrite N2 in N. injection N as ->. rewrite Nat.eqb_refl. eapply IHv; eassumption || reflexivity.
  - discriminate A.
Qed.

Lemma app_inj_length : forall (A : Type) (a b c d : list A), length a = length c -> a ++ b = c ++ d -> a = c /\ b = d.
Proof.
  intros A a. induction a as [|x a IH]; intros b [|y c] d L E; try discriminate L; [auto|]. cbn [app] in E. injection E as <- E.
  destruct (IH b c d) as (-> & ->); [injection L as L; exact L|exact E|auto].
Qed.
(** A value is its spans and the rest. *)
Lemma rebuild : forall z v w, with_span z v = with_span z w -> spans v = spans w -> v = w.
Proof.
  intro z.
  assert (L : forall l k, Forall (fun v => forall w, with_span z v = with_span z w -> spans v = spans w -> v = w) l ->
    map (with_span z) l = map (with_span z) k -> flat_map spans l = flat_map spans k -> l = k).
  { intros l k F. revert k. induction F as [|v l H F IH]; intros [|w k] E S; try discriminate E; [reflexivity|]. cbn [map flat_map] in *. injection E as E1 E2.
    apply app_inj_length in S; [|exact (shape_length z _ _ E1)]. destruct S as (S1 & S2). rewrite (H w E1 S1), (IH k E2 S2). reflexivity. }
  induction v using value_ind'; intros w E S; destruct w as [|y|b|d|w|y|w|k|[w|]|k|j w|q w b]; try discriminate E; cbn [with_span spans] in *;
    try reflexivity; try (injection S as ->; reflexivity); injection E; intros; subst; try reflexivity; try (repeat f_equal; eauto; fail).
  apply app_inj_length in S; [|eapply shape_length; eassumption]. destruct S as (S1 & S2). injection S2 as ->. f_equal. eauto.
Qed.

(** Trees of the same text in two places. *)
Section Places.
Variables addr addr2 : N.
Variables front front2 rest : text.
Variable before : span -> span -> Prop.
Variable z : span.
Notation moves := (moved addr addr2 front front2 rest before).
Notation entry := (moved_entry addr addr2 front front2 rest before).
Lemma moved_spans : forall v w, moves v w -> with_span z v = with_span z w /\ Forall2 entry (spans v) (spans w).
Proof.
  assert (L : forall l k, Forall (fun v => forall w, moves v w -> with_span z v = with_span z w /\ Forall2 entry (spans v) (spans w)) l ->
    Forall2 moves l k -> map (with_span z) l = map (with_span z) k /\ Forall2 entry (flat_map spans l) (flat_map spans k)).
  { intros l k H F. induction F as [|v w l k M F IH]; cbn [map flat_map]; [split; [reflexivity|constructor]|]. inversion H; subst.
    destruct (H2 w M) as (E & S). destruct (IH H3) as (E' & S'). split; [congruence|apply Forall2_app; assumption]. }
  induction v using value_ind'; intros w M; inversion M; subst; cbn [with_span spans]; try (split; [reflexivity|constructor]; fail).
  - split; [reflexivity|]. constructor; [assumption|constructor].
  - destruct (IHv w0) as (E & S); [assumption|]. split; [congruence|exact S].
  - destruct (IHv w0) as (E & S); [assumption|]. split; [congruence|exact S].
  - destruct (L l k) as (E & S); [assumption|assumption|]. split; [congruence|exact S].
  - destruct (IHv w0) as (E & S); [assumption|]. split; [congruence|exact S].
  - destruct (L l k) as (E & S); [assumption|assumption|]. split; [congruence|exact S].
  - destruct (IHv w0) as (E & S); [assumption|]. split; [congruence|exact S].
  - destruct (IHv w0) as (E & S); [assumption|]. split; [congruence|]. apply Forall2_app; [exact S|]. constructor; [left; assumption|constructor].
Qed.
End Places.

(** The spans of a tree are spans of its input, if those on the stack are. *)
Lemma tree_spans : forall addr s env property n p K p' v K', boundary s p -> Forall (in_input addr s) K ->
  yields addr s env property n p K (Some (p', v, K')) -> Forall (in_input addr s) (spans v).
Proof.
  intros addr s env property n p K p' v K' (pre & post & Es & ->) F Y. destruct (Y [] (tracker_new (blen pre))) as (k0 & Yk). destruct (Yk k0 (le_n k0)) as (E & _).
  unfold visible in E. destruct (try_parse addr s env property k0 n (blen pre) _) as [([(q, w)|], st)| |] eqn:P; try discriminate E. injection E as -> -> _.
  set (before := fun a b : span => a = b /\ in_input addr s a).
  rewrite Es in P.
  destruct (parse_moved env property addr addr pre pre post before) with (n := n) (k := k0) (K := K) (sv := @nil (list span)) (t := tracker_new (blen pre))
    (K2 := K) (sv2 := @nil (list span)) (t2 := tracker_new (blen pre)) (o := Some (p', v)) (st' := st) as (o2 & K2 & u2 & k1 & A & B & _).
  - intros a b (<- & _ & _ & m & T). exists m. auto.
  - left. apply iff_refl.
  - clear - F. induction F; constructor; [right; split; [reflexivity|assumption]|assumption].
  - apply new_moved.
  - exact P.
  - destruct (more_fuel addr (pre ++ post) env property k0 (k0 + k1) n (blen pre) (mkState (mkStack K []) (tracker_new (blen pre))) ltac:(lia)) as (Q & _).
    rewrite P in Q. specialize (Q ltac:(discriminate)). rewrite (A (k0 + k1) ltac:(lia)) in Q. injection Q as -> _. destruct B as (_ & B).
    destruct (moved_spans addr addr pre pre post before (mkSpan 0 [] 0 0) v v B) as (_ & S). clear - S Es.
    induction (spans v) as [|a l IH]; [constructor|]. inversion S as [|? ? ? ? H S']; subst. constructor; [|exact (IH S')].
    destruct H as [(x & m & y & Er & Ea & _)|(_ & H)]; [|exact H]. rewrite Ea. split; [reflexivity|]. split; [reflexivity|].
    exists m, (pre ++ x), y. rewrite <- !app_assoc, Er. auto.
Qed.
