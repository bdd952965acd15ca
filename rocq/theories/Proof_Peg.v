(** The two relations agree: forgetting values, spans and attempts turns [run] into [peg], and every
    [peg] derivation comes from a [run] derivation, inside any rules and in any context. *)
From Coq Require Import List NArith ZArith Arith Bool Lia ZifyBool ZifyNat ZifyN.
From Verif Require Import Model_Text Model_Position Model_Span Model_Stack Model_Tracker Model_Node
  Spec_Text Spec_Peg Spec_Run Spec_Tracker Proof_Text Proof_Position Proof_Span Proof_Tracker
  Proof_Terminal Proof_Run Proof_Complete.
Import ListNotations.
Open Scope list_scope.

Lemma one_text_shape : forall t pre post K pre' post' K',
  one_text t pre post K (Ok pre' post' K') -> pre' = pre ++ t /\ post = t ++ post' /\ K' = K.
Proof. intros. inversion H; subst; auto. Qed.
Lemma one_char_shape : forall P pre post K pre' post' K',
  one_char P pre post K (Ok pre' post' K') ->
  exists c, pre' = pre ++ [c] /\ post = [c] ++ post' /\ K' = K /\ P c.
Proof. intros. inversion H; subst; eauto. Qed.

Lemma terminal_shape : forall property n pre post K Ks pre' post' Ks',
  Forall2 span_text K Ks -> terminal property pre post Ks n (Ok pre' post' Ks') ->
  exists m, pre' = pre ++ m /\ post = m ++ post' /\ Forall2 span_text (terminal_stack n K) Ks'.
Proof.
  intros property n pre post K Ks pre' post' Ks' HK H.
  inversion H; subst;
    try match goal with A : one_text _ _ _ _ _ |- _ =>
      apply one_text_shape in A; destruct A as (-> & -> & ->) end;
    try match goal with A : one_char _ _ _ _ _ |- _ =>
      apply one_char_shape in A; destruct A as (? & -> & -> & -> & _) end;
    cbn [terminal_stack];
    first
    [ exists []; rewrite app_nil_r; split; [reflexivity|split; [reflexivity|]]
    | eexists; split; [reflexivity|split; [reflexivity|]] ];
    first [assumption | inversion HK; subst; assumption | constructor].
Qed.

Lemma kept_sequence : forall fields, map snd (kept_fields fields) = sequence_items fields.
Proof.
  intros [|[t tv] fields]; [reflexivity|]. simpl. f_equal.
  induction fields as [|[a b] fields IH]; simpl; congruence.
Qed.
Lemma kept_round_items : forall t trivia i, map snd (kept_round t trivia i) = round_items t trivia i.
Proof. intros. unfold kept_round, round_items. destruct (N.eq_dec i 0); reflexivity. Qed.

Section Peg.
Variable addr : N.
Variable s : text.
Variable env : rule -> rule_def.
Variable property : N -> char -> bool.
Notation runs := (run addr s env property).
Notation runs_items := (run_items addr s env property).
Notation runs_choice := (run_choice addr s env property).
Notation runs_rep := (run_rep addr s env property).

Definition erased {V : Type} (pre post : text) (K : list span) (r : rresult V)
  (R : text -> text -> list text -> result -> Prop) : Prop :=
  s = pre ++ post -> forall Ks, Forall2 span_text K Ks ->
  match r with
  | RFail => R pre post Ks Fail
  | ROk pre' post' K' _ => exists m Ks', pre' = pre ++ m /\ post = m ++ post' /\
      Forall2 span_text K' Ks' /\ R pre post Ks (Ok pre' post' Ks')
  end.

Ltac nothing := exists []; eexists; rewrite app_nil_r; split; [reflexivity|split; [reflexivity|split]].

Lemma run_peg_all :
  (forall chain pol n pre post K r tr, runs chain pol n pre post K r tr ->
     erased pre post K r (peg env property n)) /\
  (forall chain pol items pre post K r tr, runs_items chain pol items pre post K r tr ->
     erased pre post K r (peg_items env property (map snd items))) /\
  (forall chain pol (i : nat) ts pre post K r tr, runs_choice chain pol i ts pre post K r tr ->
     erased pre post K r (peg_choice env property ts)) /\
  (forall chain pol x y mi ma i pre post K r tr, runs_rep chain pol x y mi ma i pre post K r tr ->
     erased pre post K r (peg_rep env property x y mi ma i)).
Proof.
  apply run_mutind; intros; intros Hs Ks0 HK0;
    repeat match goal with IH : erased ?pre ?post ?K _ _, HS : s = ?pre ++ ?post,
        HK : Forall2 span_text ?K ?Ks |- _ => specialize (IH HS Ks HK); cbn beta iota in IH end.
  - assert (Ks = Ks0) by (eapply texts_unique; eauto). subst Ks0.
    destruct (terminal_shape _ _ _ _ _ _ _ _ _ HK0 t) as (m' & E & -> & HK').
    apply app_inv_head in E. subst m'. exists m, Ks'. repeat split; auto. constructor. exact t.
  - assert (Ks = Ks0) by (eapply texts_unique; eauto). subst Ks0. constructor. exact t.
  - destruct H as (m & Ks' & -> & -> & HK' & HP). nothing; [exact HK0|].
    eapply P_positive_ok. exact HP.
  - apply P_positive_fail. exact H.
  - nothing; [exact HK0|]. apply P_negative_ok. exact H.
  - destruct H as (m & Ks' & -> & -> & HK' & HP). eapply P_negative_fail. exact HP.
  - destruct H as (m & Ks' & -> & -> & HK' & HP). exists m, (m :: Ks').
    split; [reflexivity|]. split; [reflexivity|]. split.
    + constructor; [|exact HK']. exists pre, post'. repeat split; auto.
    + apply P_push_ok. exact HP.
  - apply P_push_fail. exact H.
  - destruct H as (m & Ks' & -> & -> & HK' & HP). exists m, Ks'. repeat split; auto.
    apply P_opt_some. exact HP.
  - nothing; [exact HK0|]. apply P_opt_none. exact H.
  - destruct H as (m & Ks' & -> & -> & HK' & HP). exists m, Ks'. repeat split; auto.
    (constructor; exact HP).
  - (constructor; exact H).
  - destruct H as (m & Ks' & -> & -> & HK' & HP). exists m, Ks'. repeat split; auto.
    apply P_seq; rewrite <- kept_sequence; exact HP.
  - apply P_seq; rewrite <- kept_sequence; exact H.
  - destruct r as [|pre' post' K' v].
    + (constructor; exact H).
    + destruct H as (m & Ks' & -> & -> & HK' & HP). exists m, Ks'. repeat split; auto.
      (constructor; exact HP).
  - destruct H as (m & Ks' & -> & -> & HK' & HP). exists m, Ks'. repeat split; auto.
    (constructor; exact HP).
  - (constructor; exact H).
  - nothing; [exact HK0|]. constructor.
  - destruct H as (m & Ks' & -> & -> & HK' & HP).
    specialize (H0 ltac:(rewrite <- app_assoc; exact Hs) Ks' HK'). cbn beta iota in H0.
    destruct H0 as (m2 & Ks2 & -> & -> & HK2 & HP2).
    exists (m ++ m2), Ks2. rewrite <- !app_assoc. repeat split; auto; rewrite (app_assoc pre).
    cbn [map snd]. eapply I_cons; [exact HP|]. exact HP2.
  - destruct H as (m & Ks' & -> & -> & HK' & HP).
    specialize (H0 ltac:(rewrite <- app_assoc; exact Hs) Ks' HK'). cbn beta iota in H0.
    cbn [map snd]. eapply I_cons; [exact HP|]. exact H0.
  - cbn [map snd]. apply I_fail. exact H.
  - constructor.
  - destruct H as (m & Ks' & -> & -> & HK' & HP). exists m, Ks'. repeat split; auto.
    apply C_ok. exact HP.
  - destruct r as [|pre' post' K' v].
    + apply C_next; auto.
    + destruct H0 as (m & Ks' & -> & -> & HK' & HP). exists m, Ks'. repeat split; auto.
      apply C_next; auto.
  - nothing; [exact HK0|]. apply R_max. assumption.
  - destruct H as (m & Ks' & -> & -> & HK' & HP).
    specialize (H0 ltac:(rewrite <- app_assoc; exact Hs) Ks' HK'). cbn beta iota in H0.
    destruct H0 as (m2 & Ks2 & -> & -> & HK2 & HP2).
    exists (m ++ m2), Ks2. rewrite <- !app_assoc. repeat split; auto; rewrite (app_assoc pre).
    rewrite kept_round_items in HP. eapply R_round; [assumption|exact HP|]. exact HP2.
  - destruct H as (m & Ks' & -> & -> & HK' & HP).
    specialize (H0 ltac:(rewrite <- app_assoc; exact Hs) Ks' HK'). cbn beta iota in H0.
    rewrite kept_round_items in HP. eapply R_round; [assumption|exact HP|]. exact H0.
  - nothing; [exact HK0|]. rewrite kept_round_items in H. apply R_stop; assumption.
  - rewrite kept_round_items in H. apply R_fail; assumption.
Qed.

Lemma run_peg : forall chain pol n pre post K r tr, runs chain pol n pre post K r tr ->
  erased pre post K r (peg env property n).
Proof. exact (proj1 run_peg_all). Qed.

(** Conversely. *)
Definition lifted {V : Type} (pre post : text) (Ks : list text) (r : result)
  (R : list (rule * nat) -> bool -> text -> text -> list span -> rresult V -> list event -> Prop)
  : Prop :=
  s = pre ++ post -> forall chain pol K, Forall2 span_text K Ks ->
  match r with
  | Fail => exists tr, R chain pol pre post K RFail tr
  | Ok pre' post' Ks' => exists m K' v tr, pre' = pre ++ m /\ post = m ++ post' /\
      Forall2 span_text K' Ks' /\ R chain pol pre post K (ROk pre' post' K' v) tr
  end.

Definition labelled (l : list bool) (ts : list node) : list (bool * node) := combine l ts.

Lemma peg_run_all :
  (forall n pre post Ks r, peg env property n pre post Ks r ->
     lifted pre post Ks r (fun chain pol => runs chain pol n)) /\
  (forall ts pre post Ks r, peg_items env property ts pre post Ks r ->
     forall items, map snd items = ts ->
     lifted pre post Ks r (fun chain pol => runs_items chain pol items)) /\
  (forall ts pre post Ks r, peg_choice env property ts pre post Ks r ->
     forall i, lifted pre post Ks r (fun chain pol => runs_choice chain pol i ts)) /\
  (forall x y mi ma i pre post Ks r, peg_rep env property x y mi ma i pre post Ks r ->
     lifted pre post Ks r (fun chain pol => runs_rep chain pol x y mi ma i)).
Proof.
  apply peg_mutind.
  - intros n pre post Ks r t Hs chain pol K HK. destruct r as [|pre' post' Ks'].
    + eexists. eapply U_terminal_fail; eauto.
    + destruct (terminal_shape _ _ _ _ _ _ _ _ _ HK t) as (m & -> & -> & HK').
      eexists m, _, _, _. repeat split; eauto. eapply U_terminal_ok; eauto.
  - intros t pre post Ks pre' post' Ks' _ IH Hs chain pol K HK.
    destruct (IH Hs chain true K HK) as (m & K' & v & tr & -> & -> & HK' & HR).
    exists [], K. do 2 eexists. rewrite app_nil_r. repeat split; eauto. eapply U_positive_ok; eauto.
  - intros t pre post Ks _ IH Hs chain pol K HK. destruct (IH Hs chain true K HK) as (tr & HR).
    eexists. apply U_positive_fail. exact HR.
  - intros t pre post Ks _ IH Hs chain pol K HK. destruct (IH Hs chain false K HK) as (tr & HR).
    exists [], K. do 2 eexists. rewrite app_nil_r. repeat split; eauto. apply U_negative_ok; eauto.
  - intros t pre post Ks pre' post' Ks' _ IH Hs chain pol K HK.
    destruct (IH Hs chain false K HK) as (m & K' & v & tr & -> & -> & HK' & HR).
    eexists. eapply U_negative_fail; eauto.
  - intros t pre post Ks m post' Ks' _ IH Hs chain pol K HK.
    destruct (IH Hs chain pol K HK) as (m' & K' & v & tr & E & -> & HK' & HR).
    apply app_inv_head in E. subst m'.
    exists m, (span_to addr s pre (pre ++ m) :: K'). do 2 eexists. repeat split; eauto.
    + constructor; [|exact HK']. exists pre, post'. repeat split; auto.
    + eapply U_push_ok; eauto.
  - intros t pre post Ks _ IH Hs chain pol K HK. destruct (IH Hs chain pol K HK) as (tr & HR).
    eexists. apply U_push_fail. exact HR.
  - intros t pre post Ks pre' post' Ks' _ IH Hs chain pol K HK.
    destruct (IH Hs chain pol K HK) as (m & K' & v & tr & -> & -> & HK' & HR).
    exists m, K'. do 2 eexists. repeat split; eauto. eapply U_opt_some; eauto.
  - intros t pre post Ks _ IH Hs chain pol K HK. destruct (IH Hs chain pol K HK) as (tr & HR).
    exists [], K. do 2 eexists. rewrite app_nil_r. repeat split; eauto. apply U_opt_none; eauto.
  - intros t trivia min max pre post Ks r _ IH Hs chain pol K HK.
    specialize (IH Hs chain pol K HK). destruct r as [|pre' post' Ks'].
    + destruct IH as (tr & HR). eexists. (constructor; exact HR).
    + destruct IH as (m & K' & v & tr & -> & -> & HK' & HR).
      exists m, K'. do 2 eexists. repeat split; eauto. (constructor; exact HR).
  - intros fields pre post Ks r _ IH Hs chain pol K HK.
    specialize (IH (kept_fields fields) (kept_sequence fields) Hs chain pol K HK).
    destruct r as [|pre' post' Ks'].
    + destruct IH as (tr & HR). eexists. (constructor; exact HR).
    + destruct IH as (m & K' & v & tr & -> & -> & HK' & HR).
      exists m, K'. do 2 eexists. repeat split; eauto. (constructor; exact HR).
  - intros ts pre post Ks r _ IH Hs chain pol K HK.
    specialize (IH 0 Hs chain pol K HK). destruct r as [|pre' post' Ks'].
    + destruct IH as (tr & HR). eexists. (constructor; exact HR).
    + destruct IH as (m & K' & v & tr & -> & -> & HK' & HR).
      exists m, K'. do 2 eexists. repeat split; eauto. (constructor; exact HR).
  - intros rl args pre post Ks r _ IH Hs chain pol K HK.
    specialize (IH Hs ((rl, blen pre) :: chain) pol K HK). destruct r as [|pre' post' Ks'].
    + destruct IH as (tr & HR). eexists. apply U_rule_fail. exact HR.
    + destruct IH as (m & K' & v & tr & -> & -> & HK' & HR).
      exists m, K'. do 2 eexists. repeat split; eauto. apply U_rule_ok. exact HR.
  - intros pre post Ks [|? ?] E Hs chain pol K HK; [|discriminate E].
    exists [], K. do 2 eexists. rewrite app_nil_r. repeat split; eauto. constructor.
  - intros t ts pre post Ks pre' post' Ks' r _ IH1 _ IH2 items E Hs chain pol K HK.
    destruct items as [|[b t'] items]; [discriminate E|]. cbn [map snd] in E.
    apply cons_eq in E. destruct E as (-> & E).
    destruct (IH1 Hs chain pol K HK) as (m & K' & v & tr & -> & -> & HK' & HR).
    specialize (IH2 items E ltac:(rewrite <- app_assoc; exact Hs) chain pol K' HK').
    destruct r as [|pre2 post2 Ks2].
    + destruct IH2 as (tr2 & HR2). eexists. eapply UI_later; eauto.
    + destruct IH2 as (m2 & K2 & v2 & tr2 & -> & -> & HK2 & HR2).
      exists (m ++ m2), K2. do 2 eexists. rewrite <- !app_assoc. repeat split; eauto; rewrite (app_assoc pre).
      eapply UI_cons; eauto.
  - intros t ts pre post Ks _ IH items E Hs chain pol K HK.
    destruct items as [|[b t'] items]; [discriminate E|]. cbn [map snd] in E.
    apply cons_eq in E. destruct E as (-> & E).
    destruct (IH Hs chain pol K HK) as (tr & HR). eexists. apply UI_fail. exact HR.
  - intros pre post Ks i Hs chain pol K HK. eexists. constructor.
  - intros t ts pre post Ks pre' post' Ks' _ IH i Hs chain pol K HK.
    destruct (IH Hs chain pol K HK) as (m & K' & v & tr & -> & -> & HK' & HR).
    exists m, K'. do 2 eexists. repeat split; eauto. (constructor; exact HR).
  - intros t ts pre post Ks r _ IH1 _ IH2 i Hs chain pol K HK.
    destruct (IH1 Hs chain pol K HK) as (tr & HR).
    specialize (IH2 (S i) Hs chain pol K HK). destruct r as [|pre' post' Ks'].
    + destruct IH2 as (tr2 & HR2). eexists. eapply UC_next; eauto.
    + destruct IH2 as (m & K' & v & tr2 & -> & -> & HK' & HR2).
      exists m, K'. do 2 eexists. repeat split; eauto. eapply UC_next; eauto.
  - intros t trivia min max i pre post Ks L Hs chain pol K HK.
    exists [], K. do 2 eexists. rewrite app_nil_r. repeat split; eauto. constructor. exact L.
  - intros t trivia min max i pre post Ks pre' post' Ks' r L _ IH1 _ IH2 Hs chain pol K HK.
    destruct (IH1 (kept_round t trivia i) (kept_round_items t trivia i) Hs chain pol K HK)
      as (m & K' & v & tr & -> & -> & HK' & HR).
    specialize (IH2 ltac:(rewrite <- app_assoc; exact Hs) chain pol K' HK').
    destruct r as [|pre2 post2 Ks2].
    + destruct IH2 as (tr2 & HR2). eexists. eapply UR_later; eauto.
    + destruct IH2 as (m2 & K2 & v2 & tr2 & -> & -> & HK2 & HR2).
      exists (m ++ m2), K2. do 2 eexists. rewrite <- !app_assoc. repeat split; eauto; rewrite (app_assoc pre).
      eapply UR_round; eauto.
  - intros t trivia min max i pre post Ks L1 L2 _ IH Hs chain pol K HK.
    destruct (IH (kept_round t trivia i) (kept_round_items t trivia i) Hs chain pol K HK) as (tr & HR).
    exists [], K. do 2 eexists. rewrite app_nil_r. repeat split; eauto. apply UR_stop; eauto.
  - intros t trivia min max i pre post Ks L1 L2 _ IH Hs chain pol K HK.
    destruct (IH (kept_round t trivia i) (kept_round_items t trivia i) Hs chain pol K HK) as (tr & HR).
    eexists. apply UR_fail; eauto.
Qed.

Lemma peg_run : forall n pre post Ks r, peg env property n pre post Ks r ->
  lifted pre post Ks r (fun chain pol => runs chain pol n).
Proof. exact (proj1 peg_run_all). Qed.

(** The result does not depend on the enclosing rules and the context. *)
Lemma run_context_all :
  (forall chain pol n pre post K r tr, runs chain pol n pre post K r tr ->
     forall chain' pol', exists tr', runs chain' pol' n pre post K r tr') /\
  (forall chain pol items pre post K r tr, runs_items chain pol items pre post K r tr ->
     forall chain' pol', exists tr', runs_items chain' pol' items pre post K r tr') /\
  (forall chain pol (i : nat) ts pre post K r tr, runs_choice chain pol i ts pre post K r tr ->
     forall chain' pol', exists tr', runs_choice chain' pol' i ts pre post K r tr') /\
  (forall chain pol x y mi ma i pre post K r tr, runs_rep chain pol x y mi ma i pre post K r tr ->
     forall chain' pol', exists tr', runs_rep chain' pol' x y mi ma i pre post K r tr').
Proof.
  apply run_mutind; intros.
  1-2: eexists; econstructor; solve [eauto].
  1-2: destruct (H chain' true); eexists; econstructor; solve [eauto].
  1-2: destruct (H chain' false); eexists; econstructor; solve [eauto].
  all: try (destruct (H chain' pol'); eexists; econstructor; solve [eauto]).
  all: try (match goal with A : runs ((?x, ?y) :: _) _ _ _ _ _ _ _ |- _ =>
         destruct (H ((x, y) :: chain') pol') end; eexists; econstructor; solve [eauto]).
  all: try (destruct (H chain' pol'); destruct (H0 chain' pol'); eexists; econstructor; solve [eauto]).
  all: try (eexists; constructor; solve [eauto]).
Qed.
Lemma run_context : forall chain pol n pre post K r tr, runs chain pol n pre post K r tr ->
  forall chain' pol', exists tr', runs chain' pol' n pre post K r tr'.
Proof. exact (proj1 run_context_all). Qed.
Lemma run_items_context : forall chain pol n pre post K r tr, runs_items chain pol n pre post K r tr ->
  forall chain' pol', exists tr', runs_items chain' pol' n pre post K r tr'.
Proof. exact (proj1 (proj2 run_context_all)). Qed.

End Peg.

(** The outcome of [peg] is unique. *)
Lemma peg_det_all : forall env property,
  (forall n pre post K r, peg env property n pre post K r ->
     forall r', peg env property n pre post K r' -> r = r') /\
  (forall ts pre post K r, peg_items env property ts pre post K r ->
     forall r', peg_items env property ts pre post K r' -> r = r') /\
  (forall ts pre post K r, peg_choice env property ts pre post K r ->
     forall r', peg_choice env property ts pre post K r' -> r = r') /\
  (forall x y mi ma i pre post K r, peg_rep env property x y mi ma i pre post K r ->
     forall r', peg_rep env property x y mi ma i pre post K r' -> r = r').
Proof.
  intros env property. apply peg_mutind; intros.
  { assert (is_terminal n = true) by (destruct t; reflexivity).
    match goal with HR : peg _ _ _ _ _ _ _ |- _ => inversion HR; subst; try discriminate end.
    eapply terminal_det; eauto. }
  all: match goal with
       | HR : peg _ _ _ _ _ _ ?r |- _ = ?r => inversion HR; subst
       | HR : peg_items _ _ _ _ _ _ ?r |- _ = ?r => inversion HR; subst
       | HR : peg_choice _ _ _ _ _ _ ?r |- _ = ?r => inversion HR; subst
       | HR : peg_rep _ _ _ _ _ _ _ _ _ _ ?r |- _ = ?r => inversion HR; subst
       end;
       try match goal with T : terminal _ _ _ _ _ _ |- _ => solve [inversion T] end;
       try (exfalso; lia); auto;
       repeat match goal with
       | IH : (forall r', peg _ _ ?n ?a ?b ?K r' -> ?x = r'), HR : peg _ _ ?n ?a ?b ?K _ |- _ =>
           apply IH in HR; try discriminate HR; try (injection HR; intros); subst; clear HR
       | IH : (forall r', peg_items _ _ ?n ?a ?b ?K r' -> ?x = r'), HR : peg_items _ _ ?n ?a ?b ?K _ |- _ =>
           apply IH in HR; try discriminate HR; try (injection HR; intros); subst; clear HR
       end; auto.
  { match goal with E : _ ++ _ = _ ++ _ |- _ => apply app_inv_head in E; subst end. reflexivity. }
Qed.
Lemma peg_det : forall env property n pre post K r r',
  peg env property n pre post K r -> peg env property n pre post K r' -> r = r'.
Proof. intros env property n pre post K r r' H. apply (proj1 (peg_det_all env property) _ _ _ _ _ H). Qed.
