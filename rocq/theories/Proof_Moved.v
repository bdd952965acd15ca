(** Moving a text moves the parse. *)
From Coq Require Import List NArith ZArith Arith Bool Lia Relations.
From Verif Require Import Model_Text Model_Position Model_Span Model_Stack Model_Tracker Model_Node Model_Pairs
  Spec_Text Spec_Peg Spec_Run Spec_Tracker Spec_Terminate Spec_Moved Proof_Text Proof_Tracker Proof_Peg Proof_Run Proof_Complete
  Proof_Fuel Proof_Yield Proof_Terminal Proof_Lossless Proof_Pairs.
Import ListNotations.
Open Scope list_scope.

(** What a terminal that is not [Soi] does does not depend on the text before. *)
Lemma terminal_place : forall property pre post K n r, terminal property pre post K n r -> n <> Soi -> forall pre2,
  match r with
  | Fail => terminal property pre2 post K n Fail
  | Ok pre' post' K' => forall m, pre' = pre ++ m -> terminal property pre2 post K n (Ok (pre2 ++ m) post' K')
  end.
Proof.
  assert (Z : forall (a : text) m, a = a ++ m -> m = []).
  { intros a m E. rewrite <- (app_nil_r a) in E at 1. apply app_inv_head in E. auto. }
  assert (OT : forall t pre post K r, one_text t pre post K r -> forall pre2,
    match r with Fail => one_text t pre2 post K Fail | Ok pre' post' K' => forall m, pre' = pre ++ m -> one_text t pre2 post K (Ok (pre2 ++ m) post' K') end).
  { intros t pre post K r H pre2. inversion H; subst; [|constructor; assumption]. intros m E. apply app_inv_head in E. subst m. constructor. reflexivity. }
  assert (OC : forall P pre post K r, one_char P pre post K r -> forall pre2,
    match r with Fail => one_char P pre2 post K Fail | Ok pre' post' K' => forall m, pre' = pre ++ m -> one_char P pre2 post K (Ok (pre2 ++ m) post' K') end).
  { intros P pre post K r H pre2. inversion H; subst; [|constructor; assumption]. intros m E. apply app_inv_head in E. subst m. econstructor; [reflexivity|assumption]. }
  intros property pre post K n r H NS pre2. inversion H; subst; try (exfalso; apply NS; reflexivity);
    try (match goal with A : one_text _ _ _ _ _ |- _ => specialize (OT _ _ _ _ _ A pre2) end);
    try (match goal with A : one_char _ _ _ _ _ |- _ => specialize (OC _ _ _ _ _ A pre2) end);
    try (destruct r; [|intros m' E; first [specialize (OT m' E) | specialize (OC m' E)]]);
    try (intros m' E; first [apply app_inv_head in E; subst m' | apply Z in E; subst m'; rewrite app_nil_r]);
    solve [econstructor; eauto].
Qed.

Section Moved.
Variable env : rule -> rule_def.
Variable property : N -> char -> bool.
Variables addr addr2 : N.
Variables front front2 rest : text.
Variable before : span -> span -> Prop.
Hypothesis before_text : forall a b, before a b -> same_text a b.
Notation entry := (moved_entry addr addr2 front front2 rest before).
Notation mspan := (moved_span addr addr2 front front2 rest).
Notation moves := (moved addr addr2 front front2 rest before).
Notation offset := (moved_offset front front2 rest).
Notation runs := (run addr (front ++ rest) env property).
Notation runs_items := (run_items addr (front ++ rest) env property).
Notation runs_choice := (run_choice addr (front ++ rest) env property).
Notation runs_rep := (run_rep addr (front ++ rest) env property).
Notation runs2 := (run addr2 (front2 ++ rest) env property).
Notation runs2_items := (run_items addr2 (front2 ++ rest) env property).
Notation runs2_choice := (run_choice addr2 (front2 ++ rest) env property).
Notation runs2_rep := (run_rep addr2 (front2 ++ rest) env property).

Definition moved_link (a b : rule * nat) : Prop := fst a = fst b /\ offset (snd a) (snd b).
Inductive moved_event : event -> event -> Prop :=
| ME_attempt ch ch2 r p p2 pol ok : Forall2 moved_link ch ch2 -> offset p p2 -> moved_event (Attempt ch r p pol ok) (Attempt ch2 r p2 pol ok)
| ME_special ch ch2 p p2 e : Forall2 moved_link ch ch2 -> offset p p2 -> moved_event (Special ch p e) (Special ch2 p2 e).

Lemma entry_text : forall a b, entry a b -> same_text a b.
Proof.
  intros a b [(x & m & y & E & -> & ->)|H]; [|auto]. exists m. unfold span_text. cbn [sp_input sp_start sp_end].
  split; [exists (front ++ x), y|exists (front2 ++ x), y]; rewrite E, !app_assoc; auto.
Qed.
Lemma entries_text : forall K K2, Forall2 entry K K2 -> forall Ks, Forall2 span_text K Ks -> Forall2 span_text K2 Ks.
Proof.
  intros K K2 H. induction H as [|a b K K2 E H IH]; intros Ks F; inversion F; subst; constructor; auto.
  destruct (entry_text _ _ E) as (m & A & B). match goal with C : span_text a _ |- _ => rewrite (span_text_unique _ _ _ C A) end. exact B.
Qed.
Lemma moves_keep : forall b v w vs ws, moves v w -> Forall2 moves vs ws -> Forall2 moves (keep b v vs) (keep b w ws).
Proof. intros [] v w vs ws A B; [constructor; assumption|exact B]. Qed.
Lemma tried_moved : forall tr tr2, Forall2 moved_event tr tr2 -> tried_rule tr2 = tried_rule tr.
Proof.
  intros tr tr2 H. unfold tried_rule. induction H as [|a b tr tr2 E H IH]; [reflexivity|]. cbn [existsb]. rewrite IH. inversion E; reflexivity.
Qed.
Lemma span_moved : forall x m post, rest = x ++ m ++ post ->
  mspan (span_to addr (front ++ rest) (front ++ x) (front ++ x ++ m)) (span_to addr2 (front2 ++ rest) (front2 ++ x) (front2 ++ x ++ m)).
Proof. intros x m post E. exists x, m, post. unfold span_to. auto. Qed.

Definition is_rest (x post : text) : Prop := rest = x ++ post.
Definition moved_result {V : Type} (same : V -> V -> Prop) (r r2 : rresult V) : Prop :=
  match r, r2 with
  | RFail, RFail => True
  | ROk pre' post' K' v, ROk pre2' post2' K2' v2 =>
      exists x', pre' = front ++ x' /\ pre2' = front2 ++ x' /\ is_rest x' post' /\ post2' = post' /\ Forall2 entry K' K2' /\ same v v2
  | _, _ => False
  end.
Definition hidden (n : node) : Prop := place_hidden env front front2 n.
Lemma hidden_part : forall n x, hidden n -> part env n x -> hidden x.
Proof.
  intros n x [H|H] P; [left; exact H|right]. intro R. apply H. eapply rt_trans; [apply rt_step; exact P|exact R].
Qed.

(** From [front ++ x] and [front2 ++ x]. *)
Definition follows {V : Type} (same : V -> V -> Prop) (R : list (rule * nat) -> text -> list span -> rresult V -> list event -> Prop)
  (chain : list (rule * nat)) (pre post : text) (K : list span) (r : rresult V) (tr : list event) : Prop :=
  forall x, pre = front ++ x -> is_rest x post -> forall K2 chain2, Forall2 entry K K2 -> Forall2 moved_link chain chain2 -> valid_stack K ->
  exists r2 tr2, R chain2 (front2 ++ x) K2 r2 tr2 /\ moved_result same r r2 /\ Forall2 moved_event tr tr2.

Lemma terminal_moved : forall chain pol n pre post K Ks m post' Ks',
  Forall2 span_text K Ks -> terminal property pre post Ks n (Ok (pre ++ m) post' Ks') -> hidden n ->
  follows moves (fun chain2 pre2 K2 r2 tr2 => runs2 chain2 pol n pre2 post K2 r2 tr2) chain pre post K
    (ROk (pre ++ m) post' (terminal_stack n K) (terminal_value addr (front ++ rest) n pre m K)) [].
Proof.
  intros chain pol n pre post K Ks m post' Ks' F T H x -> E K2 chain2 EK EC _.
  assert (T2 : terminal property (front2 ++ x) post Ks n (Ok ((front2 ++ x) ++ m) post' Ks')).
  { destruct (match n with Soi => true | _ => false end) eqn:D.
    - destruct n; try discriminate. destruct H as [H|H]; [|exfalso; apply H, rt_refl]. inversion T; subst.
      assert (m = []) as -> by (match goal with A : _ = (front ++ x) ++ m |- _ => rewrite <- (app_nil_r (front ++ x)) in A at 1; apply app_inv_head in A; auto end).
      rewrite app_nil_r. match goal with A : front ++ x = [] |- _ => apply app_eq_nil in A; destruct A as (A & ->); apply H in A; rewrite A end. rewrite !app_nil_r. constructor. reflexivity.
    - apply (terminal_place property (front ++ x) post Ks n (Ok ((front ++ x) ++ m) post' Ks') T); [intros ->; discriminate|reflexivity]. }
  destruct (terminal_shape _ _ _ _ _ _ _ _ _ F T) as (m' & A & B & _). apply app_inv_head in A. subst m'.
  eexists _, _. split; [eapply U_terminal_ok; [eapply entries_text; eassumption|exact T2]|]. split; [|constructor].
  assert (E' : rest = (x ++ m) ++ post') by (rewrite <- app_assoc, <- B; exact E).
  exists (x ++ m). rewrite !app_assoc. split; [reflexivity|]. split; [reflexivity|]. split; [exact E'|]. split; [reflexivity|].
  split.
  - destruct n; cbn [terminal_stack]; try exact EK; try constructor; inversion EK; subst; try constructor; assumption.
  - assert (S : mspan (span_to addr (front ++ rest) (front ++ x) ((front ++ x) ++ m)) (span_to addr2 (front2 ++ rest) (front2 ++ x) ((front2 ++ x) ++ m))).
    { rewrite <- !app_assoc. apply (span_moved x m post'). rewrite E', <- app_assoc. reflexivity. }
    destruct n; cbn [terminal_value]; try (constructor; fail); try (apply M_span; left; exact S); try (destruct m; constructor; fail).
    + destruct m as [|c [|? ?]]; try constructor. destruct (N.eq_dec c LF); constructor.
    + inversion EK; subst; [constructor|]. apply M_span. assumption.
Qed.
Lemma misuse_moved : forall n K K2, Forall2 entry K K2 -> terminal_misuse n K2 = terminal_misuse n K.
Proof.
  intros n K K2 H. assert (L : length K2 = length K) by (induction H; cbn [length]; congruence).
  destruct n; cbn [terminal_misuse]; rewrite ?L; try reflexivity; inversion H; reflexivity.
Qed.
Lemma terminal_fail_moved : forall chain pol n pre post K Ks,
  Forall2 span_text K Ks -> terminal property pre post Ks n Fail -> hidden n ->
  follows moves (fun chain2 pre2 K2 r2 tr2 => runs2 chain2 pol n pre2 post K2 r2 tr2) chain pre post K
    RFail (map (Special chain (blen pre)) (terminal_misuse n K)).
Proof.
  intros chain pol n pre post K Ks F T H x -> E K2 chain2 EK EC _.
  assert (T2 : terminal property (front2 ++ x) post Ks n Fail).
  { destruct (match n with Soi => true | _ => false end) eqn:D.
    - destruct n; try discriminate. destruct H as [H|H]; [|exfalso; apply H, rt_refl]. inversion T; subst.
      apply T_soi_fail. intro A. apply app_eq_nil in A. destruct A as (A & ->). apply H in A. match goal with B : front ++ [] <> [] |- _ => rewrite A in B; apply B; reflexivity end.
    - apply (terminal_place property (front ++ x) post Ks n Fail T). intros ->; discriminate. }
  eexists _, _. split; [eapply U_terminal_fail; [eapply entries_text; eassumption|exact T2]|]. split; [exact I|].
  rewrite (misuse_moved n K K2 EK). induction (terminal_misuse n K) as [|e l IH]; constructor; [|exact IH].
  constructor; [exact EC|]. exists x, post. auto.
Qed.

Lemma seq_items : forall fields, hidden (Seq fields) -> Forall (fun bt => hidden (snd bt)) (kept_fields fields).
Proof.
  intros fields H. assert (A : forall t, In t (sequence_items fields) -> hidden t) by (intros t I; eapply hidden_part; [exact H|constructor; exact I]).
  destruct fields as [|(t, trivia) fields]; [constructor|]. cbn [kept_fields sequence_items] in *.
  constructor; [apply A; left; reflexivity|]. assert (B : forall u, In u (flat_map (fun f : node * node => [snd f; fst f]) fields) -> hidden u) by (intros; apply A; right; assumption).
  clear A H. induction fields as [|(u, tv) fields IH]; [constructor|]. cbn [flat_map app fst snd] in *.
  constructor; [apply B; left; reflexivity|]. constructor; [apply B; right; left; reflexivity|]. apply IH. intros. apply B. right. right. assumption.
Qed.
Lemma round_hidden : forall t trivia i, hidden t -> hidden trivia -> Forall (fun bt => hidden (snd bt)) (kept_round t trivia i).
Proof. intros. unfold kept_round. destruct (N.eq_dec i 0); repeat apply Forall_cons; try apply Forall_nil; assumption. Qed.
Lemma link_moved : forall r x post chain chain2, is_rest x post -> Forall2 moved_link chain chain2 ->
  Forall2 moved_link ((r, blen (front ++ x)) :: chain) ((r, blen (front2 ++ x)) :: chain2).
Proof. intros r x post chain chain2 E H. constructor; [|exact H]. split; [reflexivity|]. exists x, post. auto. Qed.

Lemma run_moved_all :
  (forall chain pol n pre post K r tr, runs chain pol n pre post K r tr -> hidden n ->
     follows moves (fun chain2 pre2 K2 r2 tr2 => runs2 chain2 pol n pre2 post K2 r2 tr2) chain pre post K r tr) /\
  (forall chain pol items pre post K r tr, runs_items chain pol items pre post K r tr -> Forall (fun bt => hidden (snd bt)) items ->
     follows (Forall2 moves) (fun chain2 pre2 K2 r2 tr2 => runs2_items chain2 pol items pre2 post K2 r2 tr2) chain pre post K r tr) /\
  (forall chain pol (i : nat) ts pre post K r tr, runs_choice chain pol i ts pre post K r tr -> Forall hidden ts ->
     follows moves (fun chain2 pre2 K2 r2 tr2 => runs2_choice chain2 pol i ts pre2 post K2 r2 tr2) chain pre post K r tr) /\
  (forall chain pol t trivia min max i pre post K r tr, runs_rep chain pol t trivia min max i pre post K r tr -> hidden t -> hidden trivia ->
     follows (Forall2 moves) (fun chain2 pre2 K2 r2 tr2 => runs2_rep chain2 pol t trivia min max i pre2 post K2 r2 tr2) chain pre post K r tr).
Proof.
  apply run_mutind.
  - intros. eapply terminal_moved; eassumption.
  - intros. eapply terminal_fail_moved; eassumption.
  - (* Positive *) intros chain pol t pre post K pre' post' K' v tr R IH H x Ex Er K2 chain2 EK EC V. 
    edestruct (IH (hidden_part _ _ H (part_positive _ _)) x Ex Er K2 chain2 EK EC V) as ([|] & tr2 & R2 & S & Et); [destruct S|].
    destruct S as (x' & E1 & E2 & E3 & E4 & E5 & E6). eexists _, tr2. split; [eapply U_positive_ok; exact R2|]. split; [|exact Et].
    exists x. repeat (split; [auto|]). constructor. exact E6.
  - intros chain pol t pre post K tr R IH H x Ex Er K2 chain2 EK EC V.
    edestruct (IH (hidden_part _ _ H (part_positive _ _)) x Ex Er K2 chain2 EK EC V) as ([|] & tr2 & R2 & S & Et); [|destruct S].
    exists RFail, tr2. split; [apply U_positive_fail; exact R2|]. auto.
  - intros chain pol t pre post K tr R IH H x Ex Er K2 chain2 EK EC V.
    edestruct (IH (hidden_part _ _ H (part_negative _ _)) x Ex Er K2 chain2 EK EC V) as ([|] & tr2 & R2 & S & Et); [|destruct S].
    eexists _, tr2. split; [apply U_negative_ok; exact R2|]. split; [|exact Et]. exists x. repeat (split; [auto|]). constructor.
  - intros chain pol t pre post K pre' post' K' v tr R IH H x Ex Er K2 chain2 EK EC V.
    edestruct (IH (hidden_part _ _ H (part_negative _ _)) x Ex Er K2 chain2 EK EC V) as ([|] & tr2 & R2 & S & Et); [destruct S|].
    exists RFail, tr2. split; [eapply U_negative_fail; exact R2|]. split; [exact I|exact Et].
  - (* Push *) intros chain pol t pre post K pre' post' K' v tr R IH H x Ex Er K2 chain2 EK EC V.
    edestruct (IH (hidden_part _ _ H (part_push _ _)) x Ex Er K2 chain2 EK EC V) as ([|] & tr2 & R2 & S & Et); [destruct S|].
    destruct S as (x' & E1 & E2 & E3 & E4 & E5 & E6). subst. eexists _, tr2. split; [eapply U_push_ok; exact R2|]. split; [|exact Et].
    exists x'. split; [reflexivity|]. split; [reflexivity|]. split; [exact E3|]. split; [reflexivity|]. split; [|constructor; exact E6].
    constructor; [left|exact E5].
    destruct (run_well addr (front ++ rest) env property _ _ _ _ _ _ _ _ R) as ((m & Em) & _ & _); [unfold is_rest in *; rewrite Er, app_assoc; reflexivity|exact V|].
    rewrite <- app_assoc in Em. apply app_inv_head in Em. subst x'. eapply span_moved. unfold is_rest in *; rewrite E3, <- app_assoc. reflexivity.
  - intros chain pol t pre post K tr R IH H x Ex Er K2 chain2 EK EC V.
    edestruct (IH (hidden_part _ _ H (part_push _ _)) x Ex Er K2 chain2 EK EC V) as ([|] & tr2 & R2 & S & Et); [|destruct S].
    exists RFail, tr2. split; [apply U_push_fail; exact R2|]. auto.
  - (* Opt *) intros chain pol t pre post K pre' post' K' v tr R IH H x Ex Er K2 chain2 EK EC V.
    edestruct (IH (hidden_part _ _ H (part_opt _ _)) x Ex Er K2 chain2 EK EC V) as ([|] & tr2 & R2 & S & Et); [destruct S|].
    destruct S as (x' & E1 & E2 & E3 & E4 & E5 & E6). eexists _, tr2. split; [eapply U_opt_some; exact R2|]. split; [|exact Et].
    exists x'. repeat (split; [auto|]). constructor. exact E6.
  - intros chain pol t pre post K tr R IH H x Ex Er K2 chain2 EK EC V.
    edestruct (IH (hidden_part _ _ H (part_opt _ _)) x Ex Er K2 chain2 EK EC V) as ([|] & tr2 & R2 & S & Et); [|destruct S].
    eexists _, tr2. split; [apply U_opt_none; exact R2|]. split; [|exact Et]. exists x. repeat (split; [auto|]). constructor.
  - (* Rep *) intros chain pol t trivia min max pre post K pre' post' K' vs tr R IH H x Ex Er K2 chain2 EK EC V.
    edestruct (IH (hidden_part _ _ H (part_rep _ _ _ _ _)) (hidden_part _ _ H (part_trivia _ _ _ _ _)) x Ex Er K2 chain2 EK EC V) as ([|] & tr2 & R2 & S & Et); [destruct S|].
    destruct S as (x' & E1 & E2 & E3 & E4 & E5 & E6). eexists _, tr2. split; [eapply U_rep_ok; exact R2|]. split; [|exact Et].
    exists x'. repeat (split; [auto|]). constructor. exact E6.
  - intros chain pol t trivia min max pre post K tr R IH H x Ex Er K2 chain2 EK EC V.
    edestruct (IH (hidden_part _ _ H (part_rep _ _ _ _ _)) (hidden_part _ _ H (part_trivia _ _ _ _ _)) x Ex Er K2 chain2 EK EC V) as ([|] & tr2 & R2 & S & Et); [|destruct S].
    exists RFail, tr2. split; [apply U_rep_fail; exact R2|]. auto.
  - (* Seq *) intros chain pol fields pre post K pre' post' K' vs tr R IH H x Ex Er K2 chain2 EK EC V.
    edestruct (IH (seq_items _ H) x Ex Er K2 chain2 EK EC V) as ([|] & tr2 & R2 & S & Et); [destruct S|].
    destruct S as (x' & E1 & E2 & E3 & E4 & E5 & E6). eexists _, tr2. split; [eapply U_seq_ok; exact R2|]. split; [|exact Et].
    exists x'. repeat (split; [auto|]). constructor. exact E6.
  - intros chain pol fields pre post K tr R IH H x Ex Er K2 chain2 EK EC V.
    edestruct (IH (seq_items _ H) x Ex Er K2 chain2 EK EC V) as ([|] & tr2 & R2 & S & Et); [|destruct S].
    exists RFail, tr2. split; [apply U_seq_fail; exact R2|]. auto.
  - (* Choice *) intros chain pol ts pre post K r tr R IH H x Ex Er K2 chain2 EK EC V.
    assert (F : Forall hidden ts) by (apply Forall_forall; intros t I; eapply hidden_part; [exact H|constructor; exact I]).
    edestruct (IH F x Ex Er K2 chain2 EK EC V) as (r2 & tr2 & R2 & S & Et). exists r2, tr2. split; [apply U_choice; exact R2|]. auto.
  - (* Rule *) intros chain pol r args pre post K pre' post' K' v tr R IH H x Ex Er K2 chain2 EK EC V. subst pre.
    edestruct (IH (hidden_part _ _ H (part_rule _ _ _)) x eq_refl Er K2 _ EK (link_moved r x post chain chain2 Er EC) V) as ([|] & tr2 & R2 & S & Et); [destruct S|].
    destruct S as (x' & E1 & E2 & E3 & E4 & E5 & E6). subst. eexists _, _. split; [eapply U_rule_ok; exact R2|].
    destruct (run_well addr (front ++ rest) env property _ _ _ _ _ _ _ _ R) as ((m & Em) & _ & _); [unfold is_rest in *; rewrite Er, app_assoc; reflexivity|exact V|].
    rewrite <- app_assoc in Em. apply app_inv_head in Em. subst x'. split.
    + exists (x ++ m). repeat (split; [auto|]). constructor; [exact E6|]. eapply span_moved. unfold is_rest in *; rewrite E3, <- app_assoc. reflexivity.
    + apply Forall2_app; [exact Et|]. rewrite (tried_moved _ _ Et). destruct (tried_rule tr); constructor; [|constructor]. constructor; [exact EC|]. exists x, post. auto.
  - intros chain pol r args pre post K tr R IH H x Ex Er K2 chain2 EK EC V. subst pre.
    edestruct (IH (hidden_part _ _ H (part_rule _ _ _)) x eq_refl Er K2 _ EK (link_moved r x post chain chain2 Er EC) V) as ([|] & tr2 & R2 & S & Et); [|destruct S].
    eexists RFail, _. split; [eapply U_rule_fail; exact R2|]. split; [exact I|].
    apply Forall2_app; [exact Et|]. rewrite (tried_moved _ _ Et). destruct (tried_rule tr); constructor; [|constructor]. constructor; [exact EC|]. exists x, post. auto.
  - (* items *) intros chain pol pre post K H x Ex Er K2 chain2 EK EC V. eexists _, _. split; [constructor|]. split; [|constructor]. exists x. repeat (split; [auto|]). constructor.
  - intros chain pol b t ts pre post K pre' post' K' v tr pre'' post'' K'' vs tr' R IH R' IH' H x Ex Er K2 chain2 EK EC V. inversion H as [|? ? H1 H2]; subst.
    edestruct (IH H1 x eq_refl Er K2 chain2 EK EC V) as ([|] & tr2 & R2 & S & Et); [destruct S|].
    destruct S as (x' & E1 & E2 & E3 & E4 & E5 & E6). subst.
    destruct (run_well addr (front ++ rest) env property _ _ _ _ _ _ _ _ R) as (_ & _ & V'); [unfold is_rest in *; rewrite Er, app_assoc; reflexivity|exact V|].
    edestruct (IH' H2 x' eq_refl E3 _ chain2 E5 EC V') as ([|] & tr3 & R3 & S & Et'); [destruct S|].
    destruct S as (x'' & F1 & F2 & F3 & F4 & F5 & F6). subst. eexists _, _. split; [eapply UI_cons; [exact R2|exact R3]|].
    split; [|apply Forall2_app; assumption]. exists x''. repeat (split; [auto|]). apply moves_keep; assumption.
  - intros chain pol b t ts pre post K pre' post' K' v tr tr' R IH R' IH' H x Ex Er K2 chain2 EK EC V. inversion H as [|? ? H1 H2]; subst.
    edestruct (IH H1 x eq_refl Er K2 chain2 EK EC V) as ([|] & tr2 & R2 & S & Et); [destruct S|].
    destruct S as (x' & E1 & E2 & E3 & E4 & E5 & E6). subst.
    destruct (run_well addr (front ++ rest) env property _ _ _ _ _ _ _ _ R) as (_ & _ & V'); [unfold is_rest in *; rewrite Er, app_assoc; reflexivity|exact V|].
    edestruct (IH' H2 x' eq_refl E3 _ chain2 E5 EC V') as ([|] & tr3 & R3 & S & Et'); [|destruct S].
    eexists RFail, _. split; [eapply UI_later; [exact R2|exact R3]|]. split; [exact I|]. apply Forall2_app; assumption.
  - intros chain pol b t ts pre post K tr R IH H x Ex Er K2 chain2 EK EC V. inversion H as [|? ? H1 H2]; subst.
    edestruct (IH H1 x eq_refl Er K2 chain2 EK EC V) as ([|] & tr2 & R2 & S & Et); [|destruct S].
    exists RFail, tr2. split; [apply UI_fail; exact R2|]. auto.
  - (* choice *) intros chain pol i pre post K H x Ex Er K2 chain2 EK EC V. exists RFail, []. split; [constructor|]. split; [exact I|constructor].
  - intros chain pol i t ts pre post K pre' post' K' v tr R IH H x Ex Er K2 chain2 EK EC V. inversion H as [|? ? H1 H2]; subst.
    edestruct (IH H1 x eq_refl Er K2 chain2 EK EC V) as ([|] & tr2 & R2 & S & Et); [destruct S|].
    destruct S as (x' & E1 & E2 & E3 & E4 & E5 & E6). eexists _, tr2. split; [eapply UC_ok; exact R2|]. split; [|exact Et].
    exists x'. repeat (split; [auto|]). constructor. exact E6.
  - intros chain pol i t ts pre post K r tr tr' R IH R' IH' H x Ex Er K2 chain2 EK EC V. inversion H as [|? ? H1 H2]; subst.
    edestruct (IH H1 x eq_refl Er K2 chain2 EK EC V) as ([|] & tr2 & R2 & S & Et); [|destruct S].
    edestruct (IH' H2 x eq_refl Er K2 chain2 EK EC V) as (r3 & tr3 & R3 & S' & Et').
    exists r3, (tr2 ++ tr3). split; [eapply UC_next; eassumption|]. split; [exact S'|]. apply Forall2_app; assumption.
  - (* rep *) intros chain pol t trivia min max i pre post K L H H' x Ex Er K2 chain2 EK EC V. eexists _, _. split; [constructor; exact L|]. split; [|constructor].
    exists x. repeat (split; [auto|]). constructor.
  - intros chain pol t trivia min max i pre post K pre' post' K' vs tr pre'' post'' K'' vs' tr' L R IH R' IH' H H' x Ex Er K2 chain2 EK EC V. subst.
    edestruct (IH (round_hidden _ _ _ H H') x eq_refl Er K2 chain2 EK EC V) as ([|] & tr2 & R2 & S & Et); [destruct S|].
    destruct S as (x' & E1 & E2 & E3 & E4 & E5 & E6). subst.
    assert (V' : valid_stack K').
    { destruct V as (Ks & V). destruct (proj1 (proj2 (run_peg_all addr (front ++ rest) env property)) _ _ _ _ _ _ _ _ R) with (Ks := Ks) as (? & Ks' & _ & _ & F & _);
        [unfold is_rest in *; rewrite Er, app_assoc; reflexivity|exact V|]. exists Ks'. exact F. }
    edestruct (IH' H H' x' eq_refl E3 _ chain2 E5 EC V') as ([|] & tr3 & R3 & S & Et'); [destruct S|].
    destruct S as (x'' & F1 & F2 & F3 & F4 & F5 & F6). subst. eexists _, _. split; [eapply UR_round; [exact L|exact R2|exact R3]|].
    split; [|apply Forall2_app; assumption]. exists x''. repeat (split; [auto|]). apply Forall2_app; assumption.
  - intros chain pol t trivia min max i pre post K pre' post' K' vs tr tr' L R IH R' IH' H H' x Ex Er K2 chain2 EK EC V. subst.
    edestruct (IH (round_hidden _ _ _ H H') x eq_refl Er K2 chain2 EK EC V) as ([|] & tr2 & R2 & S & Et); [destruct S|].
    destruct S as (x' & E1 & E2 & E3 & E4 & E5 & E6). subst.
    assert (V' : valid_stack K').
    { destruct V as (Ks & V). destruct (proj1 (proj2 (run_peg_all addr (front ++ rest) env property)) _ _ _ _ _ _ _ _ R) with (Ks := Ks) as (? & Ks' & _ & _ & F & _);
        [unfold is_rest in *; rewrite Er, app_assoc; reflexivity|exact V|]. exists Ks'. exact F. }
    edestruct (IH' H H' x' eq_refl E3 _ chain2 E5 EC V') as ([|] & tr3 & R3 & S & Et'); [|destruct S].
    eexists RFail, _. split; [eapply UR_later; [exact L|exact R2|exact R3]|]. split; [exact I|]. apply Forall2_app; assumption.
  - intros chain pol t trivia min max i pre post K tr L L' R IH H H' x Ex Er K2 chain2 EK EC V.
    edestruct (IH (round_hidden _ _ _ H H') x Ex Er K2 chain2 EK EC V) as ([|] & tr2 & R2 & S & Et); [|destruct S].
    eexists _, tr2. split; [eapply UR_stop; [exact L|exact L'|exact R2]|]. split; [|exact Et]. exists x. repeat (split; [auto|]). constructor.
  - intros chain pol t trivia min max i pre post K tr L L' R IH H H' x Ex Er K2 chain2 EK EC V.
    edestruct (IH (round_hidden _ _ _ H H') x Ex Er K2 chain2 EK EC V) as ([|] & tr2 & R2 & S & Et); [|destruct S].
    exists RFail, tr2. split; [eapply UR_fail; [exact L|exact L'|exact R2]|]. auto.
Qed.
End Moved.

Section Trackers.
Variables front front2 rest : text.
Notation offset := (moved_offset front front2 rest).
Notation event_moved := (moved_event front front2 rest).
Notation link := (moved_link front front2 rest).
Notation tracks := (moved_tracker front front2 rest).

Lemma offset_compare : forall a b c d, offset a c -> offset b d -> Nat.compare a b = Nat.compare c d.
Proof.
  intros a b c d (x & y & _ & -> & ->) (x' & y' & _ & -> & ->). rewrite !blen_app.
  destruct (Nat.compare_spec (blen front + blen x) (blen front + blen x')) as [E|E|E];
    [rewrite (proj2 (Nat.compare_eq_iff _ _))|rewrite (proj2 (Nat.compare_lt_iff _ _))|rewrite (proj2 (Nat.compare_gt_iff _ _))]; try reflexivity; lia.
Qed.
Lemma offset_eqb : forall a b c d, offset a c -> offset b d -> (a =? b) = (c =? d).
Proof. intros a b c d A B. assert (E := offset_compare _ _ _ _ A B). rewrite !Nat.eqb_compare, E. reflexivity. Qed.
Lemma upper_moved : forall ch ch2, Forall2 link ch ch2 -> forall p p2, offset p p2 -> upper ch p = upper ch2 p2.
Proof.
  unfold upper. intros ch ch2 H p p2 E. induction H as [|(r, q) (r2, q2) ch ch2 (A & B) H IH]; [reflexivity|]. cbn [find snd fst] in *. subst r2.
  rewrite (offset_eqb _ _ _ _ B E). destruct (negb (q2 =? p2)); [reflexivity|exact IH].
Qed.
Lemma play_all_moved : forall tr tr2, Forall2 event_moved tr tr2 -> forall p p2 m, offset p p2 ->
  exists q q2 m', play_all tr (p, m) = (q, m') /\ play_all tr2 (p2, m) = (q2, m') /\ offset q q2.
Proof.
  intros tr tr2 H. induction H as [|e e2 tr tr2 E H IH]; intros p p2 m A; [exists p, p2, m; auto|].
  unfold play_all in *. cbn [fold_left].
  assert (G : exists q q2 m', play_event (p, m) e = (q, m') /\ play_event (p2, m) e2 = (q2, m') /\ offset q q2).
  { inversion E as [ch ch2 r at_ at2 pol ok C D|ch ch2 at_ at2 x C D]; subst; cbn [play_event]; unfold prep; cbn [fst snd];
      rewrite (offset_compare _ _ _ _ D A), (upper_moved _ _ C _ _ D); destruct (Nat.compare at2 p2); cbn [andb fst snd];
      try (destruct (negb (Bool.eqb ok pol))); cbn [fst snd]; eexists _, _, _; (split; [reflexivity|]); (split; [reflexivity|]); assumption. }
  destruct G as (q & q2 & m' & -> & -> & G). apply IH. exact G.
Qed.
Lemma play_moved : forall tr tr2 t t2, Forall2 event_moved tr tr2 -> tracks t t2 -> tracks (play tr t) (play tr2 t2).
Proof.
  intros tr tr2 t t2 H (A & B & C & D). unfold play. rewrite (tried_moved _ _ _ _ _ H), C.
  destruct (play_all_moved _ _ H _ _ (tk_attempts t2) A) as (q & q2 & m' & -> & -> & E). cbn [fst snd].
  split; [exact E|]. split; [exact B|]. split; [reflexivity|]. cbn [tk_stack].
  destruct D as [|((r, p), c) ((r2, p2), c2) l l2 F D]; [constructor|]. constructor; [|exact D].
  destruct F as (F1 & F2 & F3). cbn [fst snd] in *. subst. split; [reflexivity|]. split; [exact F2|reflexivity].
Qed.
Lemma chain_moved : forall t t2, tracks t t2 -> Forall2 link (chain_of t) (chain_of t2).
Proof.
  intros t t2 (_ & _ & _ & D). unfold chain_of. induction D as [|a b l l2 (A & B & _) D IH]; constructor; [split; assumption|exact IH].
Qed.
Lemma new_moved : tracks (tracker_new (blen front)) (tracker_new (blen front2)).
Proof. split; [exists [], rest; rewrite !app_nil_r; auto|]. split; [reflexivity|]. split; [reflexivity|constructor]. Qed.
End Trackers.

Section Parses.
Variable env : rule -> rule_def.
Variable property : N -> char -> bool.
Variables addr addr2 : N.
Variables front front2 rest : text.
Variable before : span -> span -> Prop.
Hypothesis before_text : forall a b, before a b -> same_text a b.
Notation entry := (moved_entry addr addr2 front front2 rest before).
Notation moves := (moved addr addr2 front front2 rest before).
Notation offset := (moved_offset front front2 rest).
Notation tracks := (moved_tracker front front2 rest).

Lemma entries_valid : forall K K2, Forall2 entry K K2 -> valid_stack K.
Proof.
  intros K K2 H. induction H as [|a b K K2 E H (Ks & IH)]; [exists []; constructor|].
  destruct (entry_text addr addr2 front front2 rest before before_text _ _ E) as (m & A & _). exists (m :: Ks). constructor; assumption.
Qed.
Lemma entries_valid2 : forall K K2, Forall2 entry K K2 -> valid_stack K2.
Proof.
  intros K K2 H. destruct (entries_valid _ _ H) as (Ks & V). exists Ks.
  exact (entries_text addr addr2 front front2 rest before before_text K K2 H Ks V).
Qed.
Lemma parse_moved : forall n, place_hidden env front front2 n ->
  forall k K sv t K2 sv2 t2 o st', Forall2 entry K K2 -> tracks t t2 ->
  try_parse addr (front ++ rest) env property k n (blen front) (mkState (mkStack K sv) t) = Ret (o, st') ->
  exists o2 K2' u2 k0,
    (forall k2, k0 <= k2 -> try_parse addr2 (front2 ++ rest) env property k2 n (blen front2) (mkState (mkStack K2 sv2) t2) = Ret (o2, mkState (mkStack K2' sv2) u2)) /\
    moved_end addr addr2 front front2 rest before o o2 /\ tracks (st_tracker st') u2 /\ (o <> None -> exists K', st_stack st' = mkStack K' sv /\ Forall2 entry K' K2').
Proof.
  intros n H k K sv t K2 sv2 t2 o st' EK ET P.
  assert (V := entries_valid _ _ EK). assert (V2 := entries_valid2 _ _ EK).
  destruct (sound addr (front ++ rest) env property k n front rest K sv t eq_refl V) as [(_ & E)|(r & tr & R & F)]; [congruence|].
  destruct (proj1 (run_moved_all env property addr addr2 front front2 rest before before_text) _ _ _ _ _ _ _ _ R H []) with (K2 := K2) (chain2 := chain_of t2)
    as (r2 & tr2 & R2 & S & Et); [rewrite app_nil_r; reflexivity|reflexivity|exact EK|apply chain_moved; exact ET|exact V|].
  rewrite app_nil_r in R2. assert (EP : tk_positive t = tk_positive t2) by apply ET. rewrite EP in R2.
  destruct (complete addr2 (front2 ++ rest) env property _ _ _ _ _ _ _ _ R2) as (k0 & C).
  assert (PL := play_moved front front2 rest _ _ _ _ Et ET).
  destruct r as [|pre' post' K' v], r2 as [|pre2' post2' K2' v2]; cbn [moved_result] in S; try destruct S; cbn [fits] in F.
  - destruct F as (K' & _ & E). rewrite P in E. injection E as -> ->.
    assert (C' := C k0 sv2 t2 (Nat.le_refl _) eq_refl eq_refl eq_refl V2). destruct C' as (K2' & _ & C0).
    exists None, K2', (play tr2 t2), k0. split.
    + intros k2 L. destruct (more_fuel addr2 (front2 ++ rest) env property k0 k2 n (blen front2) (mkState (mkStack K2 sv2) t2) L) as (M & _).
      rewrite M, C0; [reflexivity|congruence].
    + split; [exact I|]. split; [exact PL|]. congruence.
  - destruct F as (_ & _ & _ & _ & E). rewrite P in E. injection E as -> ->.
    destruct H0 as (-> & -> & Er & -> & EK' & Ev).
    exists (Some (blen (front2 ++ x), v2)), K2', (play tr2 t2), k0. split.
    + intros k2 L. destruct (C k2 sv2 t2 L eq_refl eq_refl eq_refl V2) as (_ & _ & _ & _ & E). exact E.
    + split; [split; [exists x, post'; auto|exact Ev]|]. split; [exact PL|]. intros _. exists K'. auto.
Qed.
End Parses.

(** ** Parsing to the end *)
Lemma eoi_step : forall addr s env property k p K sv tk,
  record_option_during_with p (fun st => try_parse addr s env property (S k) Eoi p st) EOI (mkState (mkStack K sv) tk) =
  Ret (if at_end s p then Some (p, VUnit) else None,
       mkState (mkStack K sv) (play [Attempt (chain_of tk) EOI p (tk_positive tk) (at_end s p)] tk)).
Proof.
  intros addr s env property k p K sv tk. unfold record_option_during_with. unfold on_tracker at 1. cbn [st_stack st_tracker try_parse].
  assert (L : forall ok, leave_rule EOI p ok (enter_rule EOI p tk) = Ret (play [Attempt (chain_of tk) EOI p (tk_positive tk) ok] tk)).
  { intros ok. pose proof (enter_leave EOI p ok [] tk) as G. rewrite play_nil in G. rewrite G. reflexivity. }
  destruct (at_end s p); cbn [obind st_tracker st_stack]; rewrite L; reflexivity.
Qed.
Lemma at_end_split : forall pre post, at_end (pre ++ post) (blen pre) = match post with [] => true | _ => false end.
Proof.
  intros pre post. unfold at_end. rewrite blen_app. destruct post as [|c post]; cbn [blen]; [apply Nat.eqb_eq; lia|].
  pose proof (len_utf8_pos c). apply Nat.eqb_neq. lia.
Qed.

Section Full.
Variable env : rule -> rule_def.
Variable property : N -> char -> bool.
Variables addr addr2 : N.
Variables front front2 rest : text.
Variable before : span -> span -> Prop.
Hypothesis before_text : forall a b, before a b -> same_text a b.
Notation entry := (moved_entry addr addr2 front front2 rest before).
Notation moves := (moved addr addr2 front front2 rest before).
Notation tracks := (moved_tracker front front2 rest).

Lemma full_moved : forall n, place_hidden env front front2 n ->
  forall k K sv t K2 sv2 t2 o st', Forall2 entry K K2 -> tracks t t2 ->
  try_parse_with addr (front ++ rest) env property k n (blen front) (mkState (mkStack K sv) t) = Ret (o, st') ->
  exists o2 st2' k0,
    (forall k2, k0 <= k2 -> try_parse_with addr2 (front2 ++ rest) env property k2 n (blen front2) (mkState (mkStack K2 sv2) t2) = Ret (o2, st2')) /\
    match o, o2 with None, None => True | Some v, Some v2 => moves v v2 | _, _ => False end /\ tracks (st_tracker st') (st_tracker st2').
Proof.
  intros n H k K sv t K2 sv2 t2 o st' EK ET P. unfold try_parse_with in P.
  destruct (try_parse addr (front ++ rest) env property k n (blen front) (mkState (mkStack K sv) t)) as [([(p, v)|], st)| |] eqn:E; try discriminate P.
  - destruct k as [|k]; [discriminate E|]. cbn [bind fst snd] in P.
    destruct (parse_moved env property addr addr2 front front2 rest before before_text n H _ _ _ _ _ sv2 _ _ _ EK ET E) as (o2 & K2' & u2 & k0 & A & B & C & D).
    destruct o2 as [(p2, v2)|]; [|destruct B]. destruct B as ((x & y & Er & -> & ->) & B).
    destruct D as (K' & Ek & D); [discriminate|]. destruct st as (sk, u). cbn [st_stack st_tracker] in *. subst sk.
    rewrite eoi_step in P. rewrite Er, app_assoc, at_end_split in P.
    assert (G : forall k2, Datatypes.S k0 <= k2 -> try_parse_with addr2 (front2 ++ rest) env property k2 n (blen front2) (mkState (mkStack K2 sv2) t2) =
      bind (Ret (if match y with [] => true | _ => false end then Some (blen (front2 ++ x), VUnit) else None,
         mkState (mkStack K2' sv2) (play [Attempt (chain_of u2) EOI (blen (front2 ++ x)) (tk_positive u2) (match y with [] => true | _ => false end)] u2))) (fun _ st => Ret (Some v2, st))).
    { intros k2 L. unfold try_parse_with. rewrite A by lia. destruct k2 as [|k2]; [lia|]. cbn [bind fst snd]. rewrite eoi_step.
      replace (at_end (front2 ++ rest) (blen (front2 ++ x))) with (match y with [] => true | _ => false end) by (rewrite Er, app_assoc, at_end_split; reflexivity). reflexivity. }
    assert (T : forall b, tracks (play [Attempt (chain_of u) EOI (blen (front ++ x)) (tk_positive u) b] u)
      (play [Attempt (chain_of u2) EOI (blen (front2 ++ x)) (tk_positive u2) b] u2)).
    { intro b. apply play_moved; [|exact C]. replace (tk_positive u2) with (tk_positive u) by apply C.
      constructor; [|constructor]. constructor; [apply chain_moved; exact C|exists x, y; auto]. }
    destruct y as [|c y]; cbn [bind] in P; injection P as <- <-; eexists _, _, (Datatypes.S k0); (split; [exact G|]); (split; [|apply T]); [exact B|exact I].
  - injection P as <- <-. destruct (parse_moved env property addr addr2 front front2 rest before before_text n H _ _ _ _ _ sv2 _ _ _ EK ET E) as (o2 & K2' & u2 & k0 & A & B & C & _).
    destruct o2 as [(p2, v2)|]; [destruct B|]. exists None, (mkState (mkStack K2' sv2) u2), k0.
    split; [intros k2 L; unfold try_parse_with; rewrite A by exact L; reflexivity|]. split; [exact I|exact C].
Qed.
End Full.

Section Pairs.
Variable env : rule -> rule_def.
Variables addr addr2 : N.
Variables front front2 rest : text.
Variable before : span -> span -> Prop.
Notation moves := (moved addr addr2 front front2 rest before).
Notation pairs_move := (Forall2 (moved_pair front front2 rest)).

Lemma span_offsets : forall a b, moved_span addr addr2 front front2 rest a b ->
  moved_offset front front2 rest (sp_start a) (sp_start b) /\ moved_offset front front2 rest (sp_end a) (sp_end b).
Proof.
  intros a b (x & m & y & Er & -> & ->). cbn [sp_start sp_end]. split.
  - exists x, (m ++ y). auto.
  - exists (x ++ m), y. rewrite <- !app_assoc. auto.
Qed.
Lemma flat_pairs : forall l k, Forall (fun v => forall w self, moves v w -> pairs_move (pairs env self v) (pairs env self w)) l ->
  Forall2 moves l k -> pairs_move (flat_map (pairs env true) l) (flat_map (pairs env true) k).
Proof.
  intros l k H F. induction F as [|v w l k M F IH]; cbn [flat_map]; [constructor|]. inversion H; subst. apply Forall2_app; auto.
Qed.
Lemma pairs_moved : forall v w self, moves v w -> pairs_move (pairs env self v) (pairs env self w).
Proof.
  induction v using value_ind'; intros w self M; inversion M; subst; cbn [pairs]; try constructor; auto using flat_pairs.
  destruct (rd_silent (env r)); [constructor|].
  match goal with Q : moved_span _ _ _ _ _ _ _ |- _ => apply span_offsets in Q; destruct Q end.
  destruct self; [|auto]. constructor; [constructor; auto|constructor].
Qed.
End Pairs.

(** At the same place of copies of a text everything but the address is the same. *)
Lemma offset_same : forall front rest a b, moved_offset front front rest a b -> a = b.
Proof. intros front rest a b (x & y & _ & -> & ->). reflexivity. Qed.
Lemma pair_same : forall front rest p q, moved_pair front front rest p q -> p = q.
Proof.
  intros front rest. induction p as [r a b l IH] using pair_ind'. intros q M. inversion M as [? ? ? ? ? ? ? A B L]; subst.
  apply offset_same in A, B. subst. f_equal. clear M. induction L as [|p q l l2 H L IHl]; [reflexivity|]. inversion IH; subst. f_equal; auto.
Qed.
Lemma pairs_same : forall front rest l k, Forall2 (moved_pair front front rest) l k -> l = k.
Proof. intros front rest l k F. induction F; [reflexivity|]. f_equal; [eapply pair_same; eassumption|assumption]. Qed.
Lemma tracker_same : forall front rest t u, moved_tracker front front rest t u -> t = u.
Proof.
  intros front rest [p b a st] [p2 b2 a2 st2] (A & B & C & D). cbn in *. apply offset_same in A. subst. assert (st = st2) as ->; [|reflexivity].
  induction D as [|[[r i] c] [[r2 i2] c2] l l2 (X & Y & Z) D IH]; [reflexivity|]. cbn in X, Y, Z. apply offset_same in Y. subst. reflexivity.
Qed.
