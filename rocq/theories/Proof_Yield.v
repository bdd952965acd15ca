From Coq Require Import List NArith ZArith Arith Bool Lia ZifyBool ZifyNat ZifyN.
From Verif Require Import Model_Text Model_Position Model_Span Model_Stack Model_Tracker Model_Node
  Spec_Text Spec_Peg Spec_Run Spec_Tracker Spec_Yield Proof_Text Proof_Position Proof_Span
  Proof_Tracker Proof_Terminal Proof_Run Proof_Complete Proof_Peg Proof_Fuel.
Import ListNotations.
Open Scope list_scope.

Section Yield.
Variable addr : N.
Variable s : text.
Variable env : rule -> rule_def.
Variable property : N -> char -> bool.
Notation chk := (check addr s env property).
Notation prs := (try_parse addr s env property).
Notation runs := (run addr s env property).
Notation runs_items := (run_items addr s env property).
Notation runs_choice := (run_choice addr s env property).
Notation runs_rep := (run_rep addr s env property).
Notation Y := (yields addr s env property).

(** [subst] must not touch the input text. *)
Definition splits (pre post : text) : Prop := s = pre ++ post.
Ltac hide := repeat match goal with E : s = ?a ++ ?b |- _ => change (splits a b) in E end.

Definition seen {V : Type} (r : rresult V) : option (nat * V * list span) :=
  match r with RFail => None | ROk pre' _ K' v => Some (blen pre', v, K') end.

(** The result of a derivation is again a split of the input. *)
Definition well {V : Type} (pre : text) (r : rresult V) : Prop :=
  match r with
  | RFail => True
  | ROk pre' post' K' _ => (exists m, pre' = pre ++ m) /\ s = pre' ++ post' /\ valid_stack K'
  end.
Lemma run_well : forall chain pol n pre post K r tr, runs chain pol n pre post K r tr ->
  s = pre ++ post -> valid_stack K -> well pre r.
Proof.
  intros chain pol n pre post K [|pre' post' K' v] tr H Hs (Ks & HK); [exact I|].
  destruct (run_peg addr s env property _ _ _ _ _ _ _ _ H Hs Ks HK) as (m & Ks' & -> & -> & HK' & _).
  simpl. repeat split; [eauto| |exists Ks'; exact HK']. rewrite <- app_assoc. exact Hs.
Qed.

Lemma yields_run : forall n pre post K o, s = pre ++ post -> valid_stack K ->
  Y n (blen pre) K o ->
  forall chain pol, exists r tr, runs chain pol n pre post K r tr /\ o = seen r /\ well pre r.
Proof.
  intros n pre post K o Hs HK H chain pol. destruct (H [] (tracker_new 0)) as (k & Hk).
  specialize (Hk k (le_n k)).
  destruct (sound addr s env property k n pre post K [] (tracker_new 0) Hs HK)
    as [(E & E')|(r & tr & HR & HF)].
  - rewrite E' in Hk. destruct Hk as (Hk & _). discriminate Hk.
  - destruct (run_context addr s env property _ _ _ _ _ _ _ _ HR chain pol) as (tr' & HR').
    exists r, tr'. split; [exact HR'|]. split; [|eapply run_well; eauto].
    destruct r as [|pre' post' K' v].
    + destruct HF as (K' & _ & E). rewrite E in Hk. destruct Hk as (Hk & _). simpl in *. congruence.
    + destruct HF as (_ & _ & _ & _ & E). rewrite E in Hk. destruct Hk as (Hk & _). simpl in *. congruence.
Qed.
Lemma run_yields : forall n pre post K r chain pol tr, s = pre ++ post -> valid_stack K ->
  runs chain pol n pre post K r tr -> Y n (blen pre) K (seen r).
Proof.
  intros n pre post K r chain pol tr Hs HK H sv t.
  destruct (run_context addr s env property _ _ _ _ _ _ _ _ H (chain_of t) (tk_positive t)) as (tr' & H').
  destruct (complete addr s env property _ _ _ _ _ _ _ _ H') as (k0 & Hk0).
  exists k0. intros k Hk. specialize (Hk0 k sv t Hk eq_refl eq_refl Hs HK).
  destruct r as [|pre' post' K' v]; cbn [fits seen without_value] in *.
  - destruct Hk0 as (K' & -> & ->). split; reflexivity.
  - destruct Hk0 as (_ & _ & _ & -> & ->). split; reflexivity.
Qed.
Lemma yields_iff : forall n pre post K o, s = pre ++ post -> valid_stack K ->
  (Y n (blen pre) K o <-> exists r tr, runs [] true n pre post K r tr /\ o = seen r).
Proof.
  intros n pre post K o Hs HK. split.
  - intros H. destruct (yields_run _ _ _ _ _ Hs HK H [] true) as (r & tr & HR & E & _). eauto.
  - intros (r & tr & HR & ->). eapply run_yields; eauto.
Qed.

(** One successful look is enough. *)
Lemma yields_once : forall n pre post K o k sv t, s = pre ++ post -> valid_stack K ->
  visible (prs k n (blen pre) (mkState (mkStack K sv) t)) = Ret o -> Y n (blen pre) K o.
Proof.
  intros n pre post K o k sv t Hs HK H.
  destruct (sound addr s env property k n pre post K sv t Hs HK) as [(_ & E)|(r & tr & HR & HF)].
  - rewrite E in H. discriminate H.
  - assert (o = seen r) as ->; [|eapply run_yields; eauto].
    destruct r as [|pre' post' K' v].
    + destruct HF as (K' & _ & E). rewrite E in H. simpl in *. congruence.
    + destruct HF as (_ & _ & _ & _ & E). rewrite E in H. simpl in *. congruence.
Qed.
Lemma yields_det : forall n p K o o', Y n p K o -> Y n p K o' -> o = o'.
Proof.
  intros n p K o o' H H'. destruct (H [] (tracker_new 0)) as (k & Hk).
  destruct (H' [] (tracker_new 0)) as (k' & Hk').
  destruct (Hk (max k k') ltac:(lia)) as (A & _). destruct (Hk' (max k k') ltac:(lia)) as (B & _).
  congruence.
Qed.

(** Choices. *)
Lemma choice_run : forall ts i pre post K chain pol r tr,
  runs_choice chain pol i ts pre post K r tr -> s = pre ++ post -> valid_stack K ->
  match r with
  | RFail => Forall (fun t => Y t (blen pre) K None) ts
  | ROk pre' post' K' v => exists j t w, nth_error ts j = Some t /\ v = VChoice (i + j) w /\
      Y t (blen pre) K (Some (blen pre', w, K')) /\
      forall j' u, j' < j -> nth_error ts j' = Some u -> Y u (blen pre) K None
  end.
Proof.
  induction ts as [|t ts IH]; intros i pre post K chain pol r tr H Hs HK; hide; inversion H; subst.
  - constructor.
  - match goal with R : run _ _ _ _ _ _ t _ _ _ _ _ |- _ => apply (run_yields _ _ _ _ _ _ _ _ Hs HK) in R as R' end.
    exists 0, t, v. rewrite Nat.add_0_r. repeat split; auto. intros. lia.
  - match goal with R : run _ _ _ _ _ _ t _ _ _ _ _ |- _ => apply (run_yields _ _ _ _ _ _ _ _ Hs HK) in R as R' end.
    match goal with R : run_choice _ _ _ _ _ _ _ _ _ _ _ _ _ |- _ => apply IH in R; auto end.
    destruct r as [|pre' post' K' v].
    + constructor; auto.
    + match goal with R : exists _, _ |- _ => destruct R as (j & u & w & N1 & -> & HY & HB) end.
      exists (S j), u, w. replace (i + S j) with (S i + j) by lia. repeat split; auto.
      intros [|j'] x L E.
      * simpl in E. injection E as <-. exact R'.
      * apply (HB j' x); auto. lia.
Qed.
Lemma choice_build : forall chain pol pre post K, s = pre ++ post -> valid_stack K ->
  forall ts i, (forall j u, nth_error ts j = Some u -> j < i -> Y u (blen pre) K None) ->
  match nth_error ts i with
  | Some t => forall pre' post' K' w tr i0, runs chain pol t pre post K (ROk pre' post' K' w) tr ->
      exists tr', runs_choice chain pol i0 ts pre post K (ROk pre' post' K' (VChoice (i0 + i) w)) tr'
  | None => forall i0, exists tr', runs_choice chain pol i0 ts pre post K RFail tr'
  end.
Proof.
  intros chain pol pre post K Hs HK. induction ts as [|t ts IH]; intros i HB.
  - destruct i; simpl; intros; eexists; constructor.
  - destruct i as [|i]; simpl.
    + intros. eexists. rewrite Nat.add_0_r. constructor. eassumption.
    + assert (F : exists tr, runs chain pol t pre post K RFail tr).
      { assert (HY : Y t (blen pre) K None) by (apply (HB 0); [reflexivity|lia]).
        destruct (yields_run _ _ _ _ _ Hs HK HY chain pol) as (r & tr & HR & E & _).
        destruct r; [eauto|discriminate E]. }
      destruct F as (trf & HF).
      specialize (IH i (fun j u E L => HB (S j) u E ltac:(lia))).
      destruct (nth_error ts i) as [u|].
      * intros pre' post' K' w tr i0 HR. destruct (IH _ _ _ _ _ (S i0) HR) as (tr' & HC).
        eexists. replace (i0 + S i) with (S i0 + i) by lia. eapply UC_next; eauto.
      * intros i0. destruct (IH (S i0)) as (tr' & HC). eexists. eapply UC_next; eauto.
Qed.
Lemma split_at : forall p, boundary s p -> exists pre post, s = pre ++ post /\ p = blen pre.
Proof. intros p (a & b & E & L). exists a, b. auto. Qed.

Theorem choice_ok : forall ts p K p' v K', boundary s p -> valid_stack K ->
  (Y (Choice ts) p K (Some (p', v, K')) <->
   exists i t w, nth_error ts i = Some t /\ v = VChoice i w /\ Y t p K (Some (p', w, K')) /\
     forall j u, j < i -> nth_error ts j = Some u -> Y u p K None).
Proof.
  intros ts p K p' v K' HB HK. destruct (split_at p HB) as (pre & post & Hs & ->). split.
  - intros H. destruct (yields_run _ _ _ _ _ Hs HK H [] true) as (r & tr & HR & E & _).
    hide; inversion HR; subst; [match goal with T : terminal _ _ _ _ _ _ |- _ => inversion T end..|].
    match goal with C : run_choice _ _ _ _ _ _ _ _ _ _ _ _ _ |- _ => pose proof (choice_run _ _ _ _ _ _ _ _ _ C Hs HK) as G end.
    destruct r as [|pre' post' K2 v2]; [discriminate E|]. injection E as -> -> ->.
    destruct G as (j & t & w & ?). exists j, t, w. exact H0.
  - intros (i & t & w & N1 & -> & HY & HB').
    destruct (yields_run _ _ _ _ _ Hs HK HY [] true) as (r & tr & HR & E & _).
    destruct r as [|pre' post' K2 v2]; [discriminate E|]. injection E as -> -> ->.
    pose proof (choice_build [] true pre post K Hs HK ts i (fun j u E L => HB' j u L E)) as G.
    rewrite N1 in G. destruct (G _ _ _ _ _ 0 HR) as (tr' & HC).
    apply (run_yields (Choice ts) pre post K (ROk pre' post' K2 (VChoice (0 + i) v2)) [] true tr' Hs HK).
    constructor. exact HC.
Qed.
Theorem choice_fail : forall ts p K, boundary s p -> valid_stack K ->
  (Y (Choice ts) p K None <-> Forall (fun t => Y t p K None) ts).
Proof.
  intros ts p K HB HK. destruct (split_at p HB) as (pre & post & Hs & ->). split.
  - intros H. destruct (yields_run _ _ _ _ _ Hs HK H [] true) as (r & tr & HR & E & _).
    destruct r as [|? ? ? ?]; [|discriminate E].
    hide; inversion HR; subst; [match goal with T : terminal _ _ _ _ _ _ |- _ => inversion T end|].
    match goal with C : run_choice _ _ _ _ _ _ _ _ _ _ _ _ _ |- _ => apply (choice_run _ _ _ _ _ _ _ _ _ C); auto end.
  - intros H. rewrite Forall_forall in H.
    pose proof (choice_build [] true pre post K Hs HK ts (length ts)
      (fun j u E _ => H u (nth_error_In _ _ E))) as G.
    replace (nth_error ts (length ts)) with (@None node) in G
      by (symmetry; apply nth_error_None; lia).
    destruct (G 0) as (tr' & HC).
    apply (run_yields (Choice ts) pre post K RFail [] true tr' Hs HK). constructor. exact HC.
Qed.

(** Lists of items. *)
Lemma items_yield : forall l p K o, boundary s p -> valid_stack K ->
  (yields_all addr s env property l p K o <->
   exists pre post r tr, s = pre ++ post /\ p = blen pre /\
     runs_items [] true l pre post K r tr /\ o = seen r).
Proof.
  induction l as [|[b n] l IH]; intros p K o HB HK; destruct (split_at p HB) as (pre & post & Hs & ->).
  - split.
    + intros H. hide; inversion H; subst. exists pre, post. do 2 eexists. repeat split; eauto; constructor.
    + intros (pre2 & post2 & r & tr & Hs2 & E & HR & ->). hide; inversion HR; subst. simpl. rewrite E. constructor.
  - split.
    + intros H. hide; inversion H; subst.
      * match goal with A : yields _ _ _ _ _ _ _ _ |- _ => destruct (yields_run _ _ _ _ _ Hs HK A [] true) as (r & tr & HR & E & _) end.
        destruct r; [|discriminate E]. exists pre, post, RFail, tr. repeat split; auto. apply UI_fail. exact HR.
      * match goal with A : yields _ _ _ _ _ _ _ _ |- _ => destruct (yields_run _ _ _ _ _ Hs HK A [] true) as (r & tr & HR & E & W) end.
        destruct r as [|pre' post' K' w]; [discriminate E|]. injection E as -> -> ->. destruct W as (_ & W1 & W2).
        match goal with A : yields_all _ _ _ _ _ _ _ _ |- _ => apply IH in A; auto;
          [destruct A as (pre2 & post2 & r & tr2 & Hs2 & E & HR2 & E2)|exists pre', post'; auto] end.
        destruct r; [|discriminate E2].
        assert (pre2 = pre' /\ post2 = post') as (-> & ->) by (eapply split_unique; eauto; congruence).
        exists pre, post. exists RFail. eexists. repeat split; eauto. eapply UI_later; eauto.
      * match goal with A : yields _ _ _ _ _ _ _ _ |- _ => destruct (yields_run _ _ _ _ _ Hs HK A [] true) as (r & tr & HR & E & W) end.
        destruct r as [|pre' post' K' w]; [discriminate E|]. injection E as -> -> ->. destruct W as (_ & W1 & W2).
        match goal with A : yields_all _ _ _ _ _ _ _ _ |- _ => apply IH in A; auto;
          [destruct A as (pre2 & post2 & r & tr2 & Hs2 & E & HR2 & E2)|exists pre', post'; auto] end.
        destruct r as [|pre3 post3 K3 vs3]; [discriminate E2|]. injection E2 as -> -> ->.
        assert (pre2 = pre' /\ post2 = post') as (-> & ->) by (eapply split_unique; eauto; congruence).
        exists pre, post. exists (ROk pre3 post3 K3 (keep b w vs3)). eexists. repeat split; eauto. eapply UI_cons; eauto.
    + intros (pre2 & post2 & r & tr & Hs2 & E & HR & ->).
      assert (pre2 = pre /\ post2 = post) as (-> & ->) by (eapply split_unique; eauto; congruence).
      hide; inversion HR; subst.
      * match goal with R : run _ _ _ _ _ _ _ _ _ _ _ _ |- _ =>
          pose proof (run_well _ _ _ _ _ _ _ _ R Hs HK) as (_ & W1 & W2);
          apply (run_yields _ _ _ _ _ _ _ _ Hs HK) in R end.
        simpl seen. change (keep b v vs) with (if b then v :: vs else vs). eapply YA_cons; [eassumption|].
        apply IH; auto; [exists pre', post'; auto|]. do 4 eexists. repeat split; eauto.
      * match goal with R : run _ _ _ _ _ _ _ _ _ _ _ _ |- _ =>
          pose proof (run_well _ _ _ _ _ _ _ _ R Hs HK) as (_ & W1 & W2);
          apply (run_yields _ _ _ _ _ _ _ _ Hs HK) in R end.
        simpl seen. eapply YA_later; [eassumption|].
        apply IH; auto; [exists pre', post'; auto|]. do 4 eexists. repeat split; eauto; reflexivity.
      * simpl seen. apply YA_fail.
        match goal with R : run _ _ _ _ _ _ _ _ _ _ _ _ |- _ => apply (run_yields _ _ _ _ _ _ _ _ Hs HK) in R; exact R end.
Qed.
Theorem sequence_yield : forall fields p K o, boundary s p -> valid_stack K ->
  (Y (Seq fields) p K o <->
   exists o', yields_all addr s env property (kept_fields fields) p K o' /\
     o = match o' with Some (p', vs, K') => Some (p', VSeq vs, K') | None => None end).
Proof.
  intros fields p K o HB HK. destruct (split_at p HB) as (pre & post & Hs & ->). split.
  - intros H. destruct (yields_run _ _ _ _ _ Hs HK H [] true) as (r & tr & HR & -> & _).
    hide; inversion HR; subst; try match goal with T : terminal _ _ _ _ _ _ |- _ => solve [inversion T] end.
    + exists (Some (blen pre', vs, K')). split; [|reflexivity]. apply items_yield; auto.
      do 4 eexists. repeat split; eauto; reflexivity.
    + exists None. split; [|reflexivity]. apply items_yield; auto.
      do 4 eexists. repeat split; eauto; reflexivity.
  - intros (o' & H & ->). apply items_yield in H; auto.
    destruct H as (pre2 & post2 & r & tr & Hs2 & E & HR & ->).
    assert (pre2 = pre /\ post2 = post) as (-> & ->) by (eapply split_unique; eauto; congruence).
    destruct r as [|pre' post' K' vs].
    + apply (run_yields _ pre post K RFail [] true tr Hs HK). apply U_seq_fail. exact HR.
    + apply (run_yields _ pre post K (ROk pre' post' K' (VSeq vs)) [] true tr Hs HK). apply U_seq_ok. exact HR.
Qed.

(** Rounds of a repetition. *)
Lemma round_run : forall t trivia (i : nat) pre post K r tr,
  runs_items [] true (kept_round t trivia (N.of_nat i)) pre post K r tr -> s = pre ++ post -> valid_stack K ->
  match r with
  | RFail => round_fails addr s env property t trivia i (blen pre) K
  | ROk pre' post' K' vs => exists v, vs = [v] /\
      round_matches addr s env property t trivia i (blen pre) K (blen pre') v K' /\
      s = pre' ++ post' /\ valid_stack K'
  end.
Proof.
  intros t trivia i pre post K r tr H Hs HK. unfold kept_round in H.
  unfold round_fails, round_matches. destruct (N.eq_dec (N.of_nat i) 0) as [E|E].
  - assert (i = 0) by lia. subst i. hide; inversion H; subst.
    + match goal with R : run_items _ _ _ _ _ _ [] _ _ _ _ _ |- _ => hide; inversion R; subst end.
      match goal with R : run _ _ _ _ _ _ _ _ _ _ _ _ |- _ =>
        pose proof (run_well _ _ _ _ _ _ _ _ R Hs HK) as (_ & W1 & W2);
        apply (run_yields _ _ _ _ _ _ _ _ Hs HK) in R end.
      exists v. repeat split; auto.
    + match goal with R : run_items _ _ _ _ _ _ [] _ _ _ _ _ |- _ => inversion R end.
    + match goal with R : run _ _ _ _ _ _ _ _ _ _ _ _ |- _ => apply (run_yields _ _ _ _ _ _ _ _ Hs HK) in R end.
      left. split; auto.
  - assert (0 < i) by lia. hide; inversion H; subst.
    + match goal with R : run _ _ _ _ _ _ trivia _ _ _ _ _ |- _ =>
        pose proof (run_well _ _ _ _ _ _ _ _ R Hs HK) as (_ & W1 & W2);
        apply (run_yields _ _ _ _ _ _ _ _ Hs HK) in R as R0 end.
      match goal with R : run_items _ _ _ _ _ _ [_] _ _ _ _ _ |- _ => hide; inversion R; subst end.
      match goal with R : run_items _ _ _ _ _ _ [] _ _ _ _ _ |- _ => hide; inversion R; subst end.
      match goal with R : run _ _ _ _ _ _ t _ _ _ _ _ |- _ =>
        pose proof (run_well _ _ _ _ _ _ _ _ R W1 W2) as (_ & W3 & W4);
        apply (run_yields _ _ _ _ _ _ _ _ W1 W2) in R as R1 end.
      exists v0. repeat split; auto. right. split; auto. simpl in *. eauto.
    + match goal with R : run _ _ _ _ _ _ trivia _ _ _ _ _ |- _ =>
        pose proof (run_well _ _ _ _ _ _ _ _ R Hs HK) as (_ & W1 & W2);
        apply (run_yields _ _ _ _ _ _ _ _ Hs HK) in R as R0 end.
      match goal with R : run_items _ _ _ _ _ _ [_] _ _ _ _ _ |- _ => hide; inversion R; subst end.
      { match goal with R : run_items _ _ _ _ _ _ [] _ _ _ _ _ |- _ => inversion R end. }
      match goal with R : run _ _ _ _ _ _ t _ _ _ _ _ |- _ =>
        apply (run_yields _ _ _ _ _ _ _ _ W1 W2) in R as R1 end.
      right. split; auto. right. simpl in *. eauto.
    + match goal with R : run _ _ _ _ _ _ _ _ _ _ _ _ |- _ => apply (run_yields _ _ _ _ _ _ _ _ Hs HK) in R end.
      right. split; auto.
Qed.
Lemma round_build_ok : forall t trivia i pre post K p' v K', s = pre ++ post -> valid_stack K ->
  round_matches addr s env property t trivia i (blen pre) K p' v K' ->
  exists pre' post' tr, p' = blen pre' /\ s = pre' ++ post' /\ valid_stack K' /\
    runs_items [] true (kept_round t trivia (N.of_nat i)) pre post K (ROk pre' post' K' [v]) tr.
Proof.
  intros t trivia i pre post K p' v K' Hs HK [(-> & H)|(L & p1 & w & K1 & H1 & H2)].
  - destruct (yields_run _ _ _ _ _ Hs HK H [] true) as (r & tr & HR & E & W).
    destruct r as [|pre' post' K2 v2]; [discriminate E|]. injection E as -> -> ->.
    destruct W as (_ & W1 & W2). exists pre', post'. eexists. repeat split; eauto.
    change [v2] with (keep true v2 []). eapply UI_cons; [exact HR|constructor].
  - destruct (yields_run _ _ _ _ _ Hs HK H1 [] true) as (r & tr & HR & E & W).
    destruct r as [|pre1 post1 K2 v2]; [discriminate E|]. injection E as -> -> ->.
    destruct W as (_ & W1 & W2).
    destruct (yields_run _ _ _ _ _ W1 W2 H2 [] true) as (r & tr2 & HR2 & E & W).
    destruct r as [|pre' post' K3 v3]; [discriminate E|]. injection E as -> -> ->.
    destruct W as (_ & W3 & W4). exists pre', post'. eexists. repeat split; eauto.
    unfold kept_round. destruct (N.eq_dec (N.of_nat i) 0); [lia|].
    change [v3] with (keep false v2 (keep true v3 [])). eapply UI_cons; [exact HR|].
    eapply UI_cons; [exact HR2|constructor].
Qed.
Lemma round_build_fail : forall t trivia i pre post K, s = pre ++ post -> valid_stack K ->
  round_fails addr s env property t trivia i (blen pre) K ->
  exists tr, runs_items [] true (kept_round t trivia (N.of_nat i)) pre post K RFail tr.
Proof.
  intros t trivia i pre post K Hs HK [(-> & H)|(L & [H|(p1 & w & K1 & H1 & H2)])].
  - destruct (yields_run _ _ _ _ _ Hs HK H [] true) as (r & tr & HR & E & W).
    destruct r as [|pre' post' K2 v2]; [|discriminate E]. eexists. apply UI_fail. exact HR.
  - destruct (yields_run _ _ _ _ _ Hs HK H [] true) as (r & tr & HR & E & W).
    destruct r as [|pre' post' K2 v2]; [|discriminate E]. eexists.
    unfold kept_round. destruct (N.eq_dec (N.of_nat i) 0); [lia|]. apply UI_fail. exact HR.
  - destruct (yields_run _ _ _ _ _ Hs HK H1 [] true) as (r & tr & HR & E & W).
    destruct r as [|pre1 post1 K2 v2]; [discriminate E|]. injection E as -> -> ->.
    destruct W as (_ & W1 & W2).
    destruct (yields_run _ _ _ _ _ W1 W2 H2 [] true) as (r & tr2 & HR2 & E & W).
    destruct r as [|pre' post' K3 v3]; [|discriminate E]. eexists.
    unfold kept_round. destruct (N.eq_dec (N.of_nat i) 0); [lia|].
    eapply UI_later; [exact HR|]. apply UI_fail. exact HR2.
Qed.

Lemma rep_run : forall chain pol t trivia min max i0 pre post K r tr,
  runs_rep chain pol t trivia min max i0 pre post K r tr -> chain = [] -> pol = true ->
  forall i, i0 = N.of_nat i -> s = pre ++ post -> valid_stack K -> (N.of_nat i <= max)%N ->
  match r with
  | RFail => exists vs p' K', rounds addr s env property t trivia i (blen pre) K vs p' K' /\
      round_fails addr s env property t trivia (i + length vs) p' K' /\
      (N.of_nat (i + length vs) < min)%N /\ (N.of_nat (i + length vs) < max)%N
  | ROk pre' post' K' vs => rounds addr s env property t trivia i (blen pre) K vs (blen pre') K' /\
      (N.of_nat (i + length vs) <= max)%N /\
      (N.of_nat (i + length vs) = max \/
       (min <= N.of_nat (i + length vs))%N /\
       round_fails addr s env property t trivia (i + length vs) (blen pre') K')
  end.
Proof.
  intros chain pol t trivia min max i0 pre post K r tr H.
  induction H; intros -> -> i' -> Hs HK L.
  - rewrite Nat.add_0_r. repeat split; try lia. constructor.
  - destruct (round_run _ _ _ _ _ _ _ _ H0 Hs HK) as (v & -> & HM & W1 & W2).
    specialize (IHrun_rep eq_refl eq_refl (S i') ltac:(lia) W1 W2 ltac:(lia)).
    destruct IHrun_rep as (I1 & I2 & I3). cbn [app length]. rewrite Nat.add_succ_r.
    split; [econstructor; eauto|]. split; [exact I2|exact I3].
  - destruct (round_run _ _ _ _ _ _ _ _ H0 Hs HK) as (v & -> & HM & W1 & W2).
    specialize (IHrun_rep eq_refl eq_refl (S i') ltac:(lia) W1 W2 ltac:(lia)).
    destruct IHrun_rep as (vs & p' & K2 & I1 & I2 & I3). exists (v :: vs), p', K2.
    cbn [length]. rewrite Nat.add_succ_r. split; [econstructor; eauto|]. split; [exact I2|exact I3].
  - pose proof (round_run _ _ _ _ _ _ _ _ H1 Hs HK) as G. rewrite Nat.add_0_r.
    split; [constructor|]. split; [lia|]. right. split; [lia|exact G].
  - pose proof (round_run _ _ _ _ _ _ _ _ H1 Hs HK) as G. exists [], (blen pre), K.
    cbn [length]. rewrite Nat.add_0_r. split; [constructor|]. split; [exact G|]. lia.
Qed.
Lemma rep_build : forall t trivia min max vs i p K p' K',
  rounds addr s env property t trivia i p K vs p' K' ->
  forall pre post, s = pre ++ post -> p = blen pre -> valid_stack K ->
  ((N.of_nat (i + length vs) <= max)%N ->
   (N.of_nat (i + length vs) = max \/
       (min <= N.of_nat (i + length vs))%N /\
       round_fails addr s env property t trivia (i + length vs) p' K') ->
   exists pre' post' tr, p' = blen pre' /\
     runs_rep [] true t trivia min max (N.of_nat i) pre post K (ROk pre' post' K' vs) tr) /\
  ((N.of_nat (i + length vs) < min)%N -> (N.of_nat (i + length vs) < max)%N ->
   round_fails addr s env property t trivia (i + length vs) p' K' ->
   exists tr, runs_rep [] true t trivia min max (N.of_nat i) pre post K RFail tr).
Proof.
  intros t trivia min max vs i p K p' K' H. induction H; intros pre post Hs -> HK.
  - cbn [length]. rewrite Nat.add_0_r. split.
    + intros L [E|(E & F)].
      * exists pre, post, []. split; auto. apply UR_max. lia.
      * destruct (N.eq_dec (N.of_nat i) max).
        -- exists pre, post, []. split; auto. apply UR_max. lia.
        -- destruct (round_build_fail _ _ _ _ _ _ Hs HK F) as (tr & HR).
           exists pre, post, tr. split; auto. apply UR_stop; auto; lia.
    + intros L1 L2 F. destruct (round_build_fail _ _ _ _ _ _ Hs HK F) as (tr & HR).
      exists tr. apply UR_fail; auto; lia.
  - destruct (round_build_ok _ _ _ _ _ _ _ _ _ Hs HK H) as (pre1 & post1 & tr1 & -> & Hs1 & HK1 & HR1).
    destruct (IHrounds pre1 post1 Hs1 eq_refl HK1) as (I1 & I2).
    cbn [length]. rewrite Nat.add_succ_r.
    replace (N.of_nat (S i)) with (N.of_nat i + 1)%N in * by lia. split.
    + intros L F. destruct (I1 L F) as (pre' & post' & tr & -> & HR).
      exists pre', post'. eexists. split; auto. change (v :: vs) with ([v] ++ vs).
      eapply UR_round; [|exact HR1|exact HR]. simpl in L. lia.
    + intros L1 L2 F. destruct (I2 L1 L2 F) as (tr & HR). eexists.
      eapply UR_later; [|exact HR1|exact HR]. simpl in L2. lia.
Qed.

Theorem repetition_ok : forall t trivia min max p K p' v K', boundary s p -> valid_stack K ->
  (Y (RepMinMax t trivia min max) p K (Some (p', v, K')) <->
   exists vs, v = VRep vs /\ rounds addr s env property t trivia 0 p K vs p' K' /\
     (N.of_nat (length vs) <= max)%N /\
     (N.of_nat (length vs) = max \/
      (min <= N.of_nat (length vs))%N /\
      round_fails addr s env property t trivia (length vs) p' K')).
Proof.
  intros t trivia min max p K p' v K' HB HK. destruct (split_at p HB) as (pre & post & Hs & ->). split.
  - intros H. destruct (yields_run _ _ _ _ _ Hs HK H [] true) as (r & tr & HR & E & _).
    destruct r as [|pre' post' K2 v2]; [discriminate E|]. injection E as -> -> ->.
    hide; inversion HR; subst; [match goal with T : terminal _ _ _ _ _ _ |- _ => inversion T end|].
    exists vs. split; [reflexivity|].
    match goal with C : run_rep _ _ _ _ _ _ _ _ _ _ _ _ _ _ _ _ |- _ =>
      apply (rep_run _ _ _ _ _ _ _ _ _ _ _ _ C eq_refl eq_refl 0 eq_refl Hs HK) end. lia.
  - intros (vs & -> & HR & L & F).
    destruct (proj1 (rep_build t trivia min max vs 0 _ _ _ _ HR pre post Hs eq_refl HK) L F)
      as (pre' & post' & tr & -> & HC).
    apply (run_yields _ pre post K (ROk pre' post' K' (VRep vs)) [] true tr Hs HK).
    apply U_rep_ok. exact HC.
Qed.
Theorem repetition_fail : forall t trivia min max p K, boundary s p -> valid_stack K ->
  (Y (RepMinMax t trivia min max) p K None <->
   exists vs p' K', rounds addr s env property t trivia 0 p K vs p' K' /\
     round_fails addr s env property t trivia (length vs) p' K' /\
     (N.of_nat (length vs) < min)%N /\ (N.of_nat (length vs) < max)%N).
Proof.
  intros t trivia min max p K HB HK. destruct (split_at p HB) as (pre & post & Hs & ->). split.
  - intros H. destruct (yields_run _ _ _ _ _ Hs HK H [] true) as (r & tr & HR & E & _).
    destruct r as [|pre' post' K2 v2]; [|discriminate E].
    hide; inversion HR; subst; [match goal with T : terminal _ _ _ _ _ _ |- _ => inversion T end|].
    match goal with C : run_rep _ _ _ _ _ _ _ _ _ _ _ _ _ _ _ _ |- _ =>
      apply (rep_run _ _ _ _ _ _ _ _ _ _ _ _ C eq_refl eq_refl 0 eq_refl Hs HK) end. lia.
  - intros (vs & p' & K' & HR & F & L1 & L2).
    destruct (proj2 (rep_build t trivia min max vs 0 _ _ _ _ HR pre post Hs eq_refl HK) L1 L2 F)
      as (tr & HC).
    apply (run_yields _ pre post K RFail [] true tr Hs HK). apply U_rep_fail. exact HC.
Qed.

(** Optional expressions, predicates, push, rules. *)
Ltac invert_run HR Hs :=
  hide; inversion HR; subst; try match goal with T : terminal _ _ _ _ _ _ |- _ => solve [inversion T] end;
  repeat match goal with R : run _ _ _ _ _ _ _ ?a ?b ?c _ _ |- _ =>
    match goal with HK : valid_stack c |- _ => apply (run_yields _ _ _ _ _ _ _ _ Hs HK) in R end end.

Theorem optional_yield : forall t p K o, boundary s p -> valid_stack K ->
  (Y (Opt t) p K o <->
   (exists p' v K', Y t p K (Some (p', v, K')) /\ o = Some (p', VOpt (Some v), K')) \/
   (Y t p K None /\ o = Some (p, VOpt None, K))).
Proof.
  intros t p K o HB HK. destruct (split_at p HB) as (pre & post & Hs & ->). split.
  - intros H. destruct (yields_run _ _ _ _ _ Hs HK H [] true) as (r & tr & HR & -> & _).
    clear H. invert_run HR Hs; simpl seen in *; eauto 8.
  - intros [(p' & v & K' & H & ->)|(H & ->)];
      destruct (yields_run _ _ _ _ _ Hs HK H [] true) as (r & tr & HR & E & W).
    + destruct r as [|pre' post' K2 v2]; [discriminate E|]. injection E as -> -> ->.
      apply (run_yields _ pre post K (ROk pre' post' K2 (VOpt (Some v2))) [] true tr Hs HK).
      apply U_opt_some. exact HR.
    + destruct r as [|pre' post' K2 v2]; [|discriminate E].
      apply (run_yields _ pre post K (ROk pre post K (VOpt None)) [] true tr Hs HK).
      apply U_opt_none. exact HR.
Qed.
Theorem positive_yield : forall t p K o, boundary s p -> valid_stack K ->
  (Y (Positive t) p K o <->
   (exists p' v K', Y t p K (Some (p', v, K')) /\ o = Some (p, VPositive v, K)) \/
   (Y t p K None /\ o = None)).
Proof.
  intros t p K o HB HK. destruct (split_at p HB) as (pre & post & Hs & ->). split.
  - intros H. destruct (yields_run _ _ _ _ _ Hs HK H [] true) as (r & tr & HR & -> & _).
    clear H. invert_run HR Hs; simpl seen in *; eauto 8.
  - intros [(p' & v & K' & H & ->)|(H & ->)];
      destruct (yields_run _ _ _ _ _ Hs HK H [] true) as (r & tr & HR & E & W).
    + destruct r as [|pre' post' K2 v2]; [discriminate E|]. injection E as -> -> ->.
      apply (run_yields _ pre post K (ROk pre post K (VPositive v2)) [] true tr Hs HK).
      eapply U_positive_ok. exact HR.
    + destruct r as [|pre' post' K2 v2]; [|discriminate E].
      apply (run_yields _ pre post K RFail [] true tr Hs HK).
      apply U_positive_fail. exact HR.
Qed.
Theorem negative_yield : forall t p K o, boundary s p -> valid_stack K ->
  (Y (Negative t) p K o <->
   (exists p' v K', Y t p K (Some (p', v, K')) /\ o = None) \/
   (Y t p K None /\ o = Some (p, VUnit, K))).
Proof.
  intros t p K o HB HK. destruct (split_at p HB) as (pre & post & Hs & ->). split.
  - intros H. destruct (yields_run _ _ _ _ _ Hs HK H [] true) as (r & tr & HR & -> & _).
    clear H. invert_run HR Hs; simpl seen in *; eauto 8.
  - intros [(p' & v & K' & H & ->)|(H & ->)];
      destruct (yields_run _ _ _ _ _ Hs HK H [] false) as (r & tr & HR & E & W).
    + destruct r as [|pre' post' K2 v2]; [discriminate E|]. injection E as -> -> ->.
      apply (run_yields _ pre post K RFail [] true tr Hs HK).
      eapply U_negative_fail. exact HR.
    + destruct r as [|pre' post' K2 v2]; [|discriminate E].
      apply (run_yields _ pre post K (ROk pre post K VUnit) [] true tr Hs HK).
      apply U_negative_ok. exact HR.
Qed.
Theorem push_yield : forall t p K o, boundary s p -> valid_stack K ->
  (Y (Push t) p K o <->
   (exists p' v K', Y t p K (Some (p', v, K')) /\
      o = Some (p', VPush v, mkSpan addr s p p' :: K')) \/
   (Y t p K None /\ o = None)).
Proof.
  intros t p K o HB HK. destruct (split_at p HB) as (pre & post & Hs & ->). split.
  - intros H. destruct (yields_run _ _ _ _ _ Hs HK H [] true) as (r & tr & HR & -> & _).
    clear H. invert_run HR Hs; simpl seen in *; eauto 8.
  - intros [(p' & v & K' & H & ->)|(H & ->)];
      destruct (yields_run _ _ _ _ _ Hs HK H [] true) as (r & tr & HR & E & W).
    + destruct r as [|pre' post' K2 v2]; [discriminate E|]. injection E as -> -> ->.
      apply (run_yields _ pre post K (ROk pre' post' (span_to addr s pre pre' :: K2) (VPush v2)) [] true tr Hs HK).
      apply U_push_ok. exact HR.
    + destruct r as [|pre' post' K2 v2]; [|discriminate E].
      apply (run_yields _ pre post K RFail [] true tr Hs HK).
      apply U_push_fail. exact HR.
Qed.
Theorem rule_yield : forall r args p K o, boundary s p -> valid_stack K ->
  (Y (Rule r args) p K o <->
   (exists p' v K', Y (rd_body (env r) args) p K (Some (p', v, K')) /\
      o = Some (p', VRule r v (mkSpan addr s p p'), K')) \/
   (Y (rd_body (env r) args) p K None /\ o = None)).
Proof.
  intros rl args p K o HB HK. destruct (split_at p HB) as (pre & post & Hs & ->). split.
  - intros H. destruct (yields_run _ _ _ _ _ Hs HK H [] true) as (r & tr & HR & -> & _).
    clear H. invert_run HR Hs; simpl seen in *; eauto 8.
  - intros [(p' & v & K' & H & ->)|(H & ->)];
      destruct (yields_run _ _ _ _ _ Hs HK H [(rl, blen pre)] true) as (r & tr & HR & E & W).
    + destruct r as [|pre' post' K2 v2]; [discriminate E|]. injection E as -> -> ->.
      eapply (run_yields _ pre post K (ROk pre' post' K2 (VRule rl v2 (span_to addr s pre pre'))) [] true _ Hs HK).
      apply U_rule_ok. exact HR.
    + destruct r as [|pre' post' K2 v2]; [|discriminate E].
      eapply (run_yields _ pre post K RFail [] true _ Hs HK).
      apply U_rule_fail. exact HR.
Qed.
End Yield.
