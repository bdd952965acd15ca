(** Trackers used by any program. *)
From Coq Require Import List NArith ZArith Arith Bool Lia.
From Verif Require Import Model_Text Model_Position Model_Stack Model_Tracker Model_Client Spec_Text Spec_Run Spec_Tracker Spec_Client
  Proof_Text Proof_Import Proof_Position Proof_Tracker Proof_Entry.
Import ListNotations.
Open Scope list_scope.

Lemma action_ind_nested : forall P : action -> Prop,
  (forall pos, P (Repeat pos)) -> (forall pos a b, P (Bound pos a b)) -> (forall pos, P (Bare pos)) ->
  (forall b body, Forall P body -> P (Polarity b body)) ->
  (forall r pos ok body, Forall P body -> P (Within r pos ok body)) -> forall a, P a.
Proof.
  intros P A B C D E. fix Fx 1. intros [pos|pos a b|pos|b body|r pos ok body]; [apply A|apply B|apply C|apply D|apply E];
    induction body as [|x body IH]; constructor; try apply Fx; exact IH.
Qed.
Lemma act_polarity : forall b body t, act (Polarity b body) t = p_during b (acts body) t.
Proof. reflexivity. Qed.
Lemma act_within : forall r pos ok body t, act (Within r pos ok body) t = p_record_during r pos ok (acts body) t.
Proof. reflexivity. Qed.

Definition marks (b : bool) (stk : list (rule * position * bool)) : list (rule * position * bool) :=
  match stk with (r, p, c) :: rest => (r, p, b || c) :: rest | [] => [] end.
Lemma marks_marks : forall a b stk, marks b (marks a stk) = marks (a || b) stk.
Proof. intros a b [|[[r p] c] rest]; [reflexivity|]. destruct a, b, c; reflexivity. Qed.
Lemma marks_false : forall stk, marks false stk = stk.
Proof. intros [|[[r p] c] rest]; reflexivity. Qed.
Lemma marks_fst : forall b stk, map fst (marks b stk) = map fst stk.
Proof. intros b [|[[r p] c] rest]; reflexivity. Qed.

(** Either all that happens is in the text [s], and then the nesting and the polarity are put back, or the
    tracker panics. *)
Definition fares (s : text) (evs : list pevent) (t : ptracker) (o : outcome ptracker) : Prop :=
  (Forall (fun e => p_input (pevent_at e) = s) evs /\
   exists t', o = Ret t' /\ p_input (pt_position t') = s /\ pt_positive t' = pt_positive t /\
     pt_stack t' = marks (existsb is_attempt evs) (pt_stack t)) \/
  (Exists (fun e => p_input (pevent_at e) <> s) evs /\ o = Panic).

Lemma prepare_fares : forall s pos t, p_input (pt_position t) = s ->
  (p_input pos = s /\ exists b t', p_prepare pos t = Ret (b, t') /\ p_input (pt_position t') = s /\ pt_positive t' = pt_positive t /\ pt_stack t' = pt_stack t) \/
  (p_input pos <> s /\ p_prepare pos t = Panic).
Proof.
  intros s pos t E. unfold p_prepare, position_cmp. destruct (text_eqb_spec (p_input pos) (p_input (pt_position t))) as [Q|Q].
  - left. split; [congruence|]. cbn [obind]. destruct (Nat.compare _ _); eexists _, _; (split; [reflexivity|]); cbn [pt_position pt_positive pt_stack]; auto.
    repeat split. congruence.
  - right. split; [congruence|reflexivity].
Qed.
Lemma special_fares : forall s chain x pos t, p_input (pt_position t) = s -> fares s [PSpecial chain pos x] t (p_report_special x pos t).
Proof.
  intros s chain x pos t E. unfold p_report_special. destruct (prepare_fares s pos t E) as [(Q & b & t' & -> & A & B & C)|(Q & ->)].
  - left. split; [repeat constructor; exact Q|]. cbn [obind existsb is_attempt orb]. eexists. split; [reflexivity|]. rewrite marks_false.
    destruct b; cbn [p_update_entry pt_position pt_positive pt_stack]; auto.
  - right. split; [constructor; exact Q|reflexivity].
Qed.
Lemma record_fares : forall s chain pol r pos ok t, p_input (pt_position t) = s ->
  (p_input pos = s /\ exists t', p_record r pos ok t = Ret t' /\ p_input (pt_position t') = s /\ pt_positive t' = pt_positive t /\ pt_stack t' = pt_stack t) \/
  (Exists (fun e => p_input (pevent_at e) <> s) [PAttempt chain r pos pol ok] /\ p_record r pos ok t = Panic).
Proof.
  intros s chain pol r pos ok t E. unfold p_record. destruct (prepare_fares s pos t E) as [(Q & b & t' & -> & A & B & C)|(Q & ->)].
  - left. split; [exact Q|]. cbn [obind]. eexists. split; [reflexivity|].
    destruct (b && _); cbn [p_update_entry pt_position pt_positive pt_stack]; auto.
  - right. split; [constructor; exact Q|reflexivity].
Qed.
Lemma acts_fares : forall s chain pol l,
  Forall (fun a => forall t, p_input (pt_position t) = s -> map fst (pt_stack t) = chain -> pt_positive t = pol -> fares s (happens chain pol a) t (act a t)) l ->
  forall t, p_input (pt_position t) = s -> map fst (pt_stack t) = chain -> pt_positive t = pol -> fares s (flat_map (happens chain pol) l) t (acts l t).
Proof.
  intros s chain pol l H. induction H as [|a l H Hl IH]; intros t E Ec Ep; cbn [flat_map acts].
  - left. split; [constructor|]. exists t. cbn [existsb]. rewrite marks_false. auto.
  - destruct (H t E Ec Ep) as [(F & t1 & -> & A & B & C)|(F & ->)]; cbn [obind].
    + destruct (IH t1 A) as [(F' & t2 & -> & A' & B' & C')|(F' & ->)]; [rewrite C, marks_fst; exact Ec|congruence| |].
      * left. split; [apply Forall_app; auto|]. exists t2. split; [reflexivity|]. split; [exact A'|]. split; [congruence|].
        rewrite C', C, marks_marks, existsb_app. reflexivity.
      * right. split; [apply Exists_app; auto|reflexivity].
    + right. split; [apply Exists_app; auto|reflexivity].
Qed.
Lemma act_fares : forall s a chain pol t, p_input (pt_position t) = s -> map fst (pt_stack t) = chain -> pt_positive t = pol ->
  fares s (happens chain pol a) t (act a t).
Proof.
  intros s a. induction a as [pos|pos x y|pos|b body IH|r pos ok body IH] using action_ind_nested; intros chain pol t E Ec Ep.
  - apply special_fares, E.
  - apply special_fares, E.
  - apply special_fares, E.
  - rewrite act_polarity. cbn [happens]. unfold p_during.
    destruct (acts_fares s chain b body (proj2 (Forall_forall _ _) (fun a J => proj1 (Forall_forall _ _) IH a J chain b)) (mkPTracker (pt_position t) b (pt_attempts t) (pt_stack t)) E Ec eq_refl)
      as [(F & t1 & -> & A & B & C)|(F & ->)]; cbn [obind].
    + left. split; [exact F|]. eexists. split; [reflexivity|]. cbn [pt_position pt_positive pt_stack] in *. auto.
    + right. auto.
  - rewrite act_within. cbn [happens]. unfold p_record_during.
    set (stk := match pt_stack t with (r', pos', _) :: rest => (r', pos', true) :: rest | [] => [] end).
    assert (Sk : stk = marks true (pt_stack t)) by (unfold stk; destruct (pt_stack t) as [|[[a p] c] rest]; reflexivity).
    destruct (acts_fares s ((r, pos) :: chain) pol body (proj2 (Forall_forall _ _) (fun a J => proj1 (Forall_forall _ _) IH a J ((r, pos) :: chain) pol))
      (mkPTracker (pt_position t) (pt_positive t) (pt_attempts t) ((r, pos, false) :: stk)) E) as [(F & t1 & -> & A & B & C)|(F & ->)];
      [cbn [pt_stack map fst]; rewrite Sk, marks_fst, Ec; reflexivity|exact Ep| |]; cbn [obind].
    + cbn [pt_positive pt_stack marks] in B, C. rewrite C, orb_false_r. destruct (existsb is_attempt _) eqn:Ex.
      * left. rewrite app_nil_r. split; [exact F|]. eexists. split; [reflexivity|]. cbn [pt_position pt_positive pt_stack]. rewrite Ex. auto.
      * destruct (record_fares s chain pol r pos ok (mkPTracker (pt_position t1) (pt_positive t1) (pt_attempts t1) stk) A) as [(Q & t2 & -> & A' & B' & C')|(Q & ->)].
        -- left. split; [apply Forall_app; split; [exact F|repeat constructor; exact Q]|]. exists t2. split; [reflexivity|]. split; [exact A'|].
           cbn [pt_positive pt_stack] in *. split; [congruence|]. rewrite existsb_app, Ex. cbn [existsb is_attempt orb]. congruence.
        -- right. split; [apply Exists_app; right; exact Q|reflexivity].
    + right. split; [apply Exists_app; left; exact F|reflexivity].
Qed.

(** With positions of one text, offsets are enough. *)
Section Offsets.
Variables (addr : N) (s : text).
Notation at_text := (at_text addr s).
Notation good_tracker := (good_tracker addr s).
Lemma at_text_eta : forall p, at_text p -> p = mkPosition addr s (p_pos p).
Proof. intros [a i p] (A & B). cbn in *. congruence. Qed.
Lemma eqb_at : forall p q, at_text p -> at_text q -> position_eqb p q = (p_pos p =? p_pos q).
Proof.
  intros p q P Q. rewrite (at_text_eta p P), (at_text_eta q Q). cbn [p_pos]. unfold position_eqb, str_ptr_eq. cbn [p_addr p_input p_pos].
  rewrite N.eqb_refl, Nat.eqb_refl. reflexivity.
Qed.
Lemma cmp_at : forall p q, at_text p -> at_text q -> position_cmp p q = Ret (Nat.compare (p_pos p) (p_pos q)).
Proof.
  intros p q P Q. unfold position_cmp. destruct (text_eqb_spec (p_input p) (p_input q)) as [E|E]; [reflexivity|].
  destruct P, Q. congruence.
Qed.
Lemma upper_at : forall stk p, Forall (fun rp => at_text (snd (fst rp))) stk -> at_text p ->
  p_find_upper stk p = find_upper (map (fun rp => (fst (fst rp), p_pos (snd (fst rp)), snd rp)) stk) (p_pos p).
Proof.
  intros stk p H P. induction H as [|[[r q] c] stk Q H IH]; [reflexivity|]. cbn [p_find_upper find_upper map fst snd] in *.
  rewrite (eqb_at q p Q P). destruct (negb _); [reflexivity|exact IH].
Qed.
Definition sim (o : outcome ptracker) (t : tracker) : Prop := exists t', o = Ret t' /\ to_tracker t' = t /\ good_tracker t'.
Lemma prepare_sim : forall p t, at_text p -> good_tracker t ->
  exists t', p_prepare p t = Ret (fst (prepare (p_pos p) (to_tracker t)), t') /\ to_tracker t' = snd (prepare (p_pos p) (to_tracker t)) /\ good_tracker t'.
Proof.
  intros p t P (A & B). unfold p_prepare, prepare. rewrite (cmp_at _ _ P A). cbn [obind to_tracker tk_position].
  destruct (Nat.compare _ _); cbn [fst snd]; eexists; (split; [reflexivity|]); (split; [reflexivity|split; assumption]).
Qed.
Lemma special_sim : forall x p t, at_text p -> good_tracker t -> sim (p_report_special x p t) (report_special x (p_pos p) (to_tracker t)).
Proof.
  intros x p t P G. unfold p_report_special, report_special. destruct (prepare_sim p t P G) as (t' & -> & E & G').
  destruct (prepare (p_pos p) (to_tracker t)) as (b, u). cbn [fst snd obind] in *. subst u. eexists. split; [reflexivity|]. destruct b; [|auto].
  destruct G' as (A & B). split; [|split; assumption]. unfold p_update_entry, update_entry, to_tracker. cbn. rewrite (upper_at _ _ B P). reflexivity.
Qed.
Lemma record_sim : forall r p ok t, at_text p -> good_tracker t -> sim (p_record r p ok t) (record r (p_pos p) ok (to_tracker t)).
Proof.
  intros r p ok t P G. unfold p_record, record. destruct (prepare_sim p t P G) as (t' & -> & E & G').
  destruct (prepare (p_pos p) (to_tracker t)) as (b, u). cbn [fst snd obind] in *. subst u. eexists. split; [reflexivity|].
  change (tk_positive (to_tracker t')) with (pt_positive t'). destruct (b && _); [|auto].
  destruct G' as (A & B). split; [|split; assumption]. unfold p_update_entry, update_entry, to_tracker. cbn. rewrite (upper_at _ _ B P). reflexivity.
Qed.

Lemma happens_attempt : forall evs, existsb is_attempt evs = tried_rule (map to_event evs).
Proof. intro evs. unfold tried_rule. induction evs as [|[] evs IH]; cbn [existsb map is_attempt to_event]; [reflexivity|reflexivity|exact IH]. Qed.
Lemma offsets_stack : forall stk, offsets (map fst stk) = map fst (map (fun rp : rule * position * bool => (fst (fst rp), p_pos (snd (fst rp)), snd rp)) stk).
Proof. intro stk. unfold offsets. rewrite !map_map. reflexivity. Qed.

Definition follows (evs : list pevent) (t : ptracker) (o : outcome ptracker) : Prop := sim o (play (map to_event evs) (to_tracker t)).
Lemma stack_kept : forall a t t', act a t = Ret t' -> map fst (pt_stack t') = map fst (pt_stack t) /\ pt_positive t' = pt_positive t.
Proof.
  intros a t t' H. destruct (act_fares (p_input (pt_position t)) a _ _ t eq_refl eq_refl eq_refl) as [(_ & t1 & E & _ & B & C)|(_ & E)]; [|congruence].
  rewrite E in H. injection H as <-. rewrite C, marks_fst. auto.
Qed.
Lemma acts_sim : forall chain pol l,
  Forall (fun a => forall t, good_tracker t -> map fst (pt_stack t) = chain -> pt_positive t = pol -> follows (happens chain pol a) t (act a t)) l ->
  forall t, good_tracker t -> map fst (pt_stack t) = chain -> pt_positive t = pol -> follows (flat_map (happens chain pol) l) t (acts l t).
Proof.
  intros chain pol l H. induction H as [|a l H Hl IH]; intros t G Ec Ep; cbn [flat_map acts].
  - exists t. cbn [map]. rewrite play_nil. auto.
  - destruct (H t G Ec Ep) as (t1 & E & Q & G1). rewrite E. cbn [obind]. destruct (stack_kept _ _ _ E) as (K1 & K2).
    destruct (IH t1 G1 (eq_trans K1 Ec) (eq_trans K2 Ep)) as (t2 & E2 & Q2 & G2).
    exists t2. split; [exact E2|]. split; [|exact G2]. rewrite Q2, Q, map_app, play_app. reflexivity.
Qed.
Lemma act_sim : forall a, all_at at_text a -> forall chain pol t, good_tracker t -> map fst (pt_stack t) = chain -> pt_positive t = pol ->
  follows (happens chain pol a) t (act a t).
Proof.
  assert (Sp : forall x p t chain, at_text p -> good_tracker t -> map fst (pt_stack t) = chain -> follows [PSpecial chain p x] t (p_report_special x p t)).
  { intros x p t chain P G <-. destruct (special_sim x p t P G) as (t' & E & Q & G'). exists t'. split; [exact E|]. split; [|exact G'].
    rewrite Q, report_special_play. cbn [map to_event]. rewrite offsets_stack. reflexivity. }
  intro a. induction a as [pos|pos x y|pos|b body IH|r pos ok body IH] using action_ind_nested; intros A chain pol t G Ec Ep; inversion A as [? P|? ? ? P|? P|? ? P|? ? ? ? P P']; subst.
  - destruct (Sp RepeatTooManyTimes pos t _ P G eq_refl) as (t' & E & Q & G'). exists t'. auto.
  - destruct (Sp (SliceOutOfBound x y) pos t _ P G eq_refl) as (t' & E & Q & G'). exists t'. auto.
  - destruct (Sp EmptyStack pos t _ P G eq_refl) as (t' & E & Q & G'). exists t'. auto.
  - rewrite act_polarity. cbn [happens]. unfold p_during.
    assert (IH' : Forall (fun a => forall t0, good_tracker t0 -> map fst (pt_stack t0) = map fst (pt_stack t) -> pt_positive t0 = b -> follows (happens (map fst (pt_stack t)) b a) t0 (act a t0)) body).
    { rewrite Forall_forall in *. intros a J t0. apply (IH a J (P a J)). }
    destruct (acts_sim _ b body IH' (mkPTracker (pt_position t) b (pt_attempts t) (pt_stack t)) G eq_refl eq_refl) as (t1 & -> & Q & G1). cbn [obind].
    eexists. split; [reflexivity|]. split; [|exact G1].
    rewrite <- (play_set_positive b). change (set_positive b (to_tracker t)) with (to_tracker (mkPTracker (pt_position t) b (pt_attempts t) (pt_stack t))). rewrite <- Q. reflexivity.
  - rewrite act_within. cbn [happens]. unfold p_record_during.
    set (stk := match pt_stack t with (r', pos', _) :: rest => (r', pos', true) :: rest | [] => [] end).
    assert (Sk : stk = marks true (pt_stack t)) by (unfold stk; destruct (pt_stack t) as [|[[a p] c] rest]; reflexivity).
    set (t0 := mkPTracker (pt_position t) (pt_positive t) (pt_attempts t) ((r, pos, false) :: stk)).
    assert (E0 : to_tracker t0 = enter_rule r (p_pos pos) (to_tracker t)).
    { unfold t0, to_tracker, enter_rule. cbn. rewrite Sk. destruct (pt_stack t) as [|[[a p] c] rest]; reflexivity. }
    assert (G0 : good_tracker t0).
    { destruct G as (G1 & G2). split; [exact G1|]. constructor; [exact P|]. rewrite Sk. destruct (pt_stack t) as [|[[a p] c] rest]; [exact G2|]. inversion G2; subst. constructor; assumption. }
    assert (IH' : Forall (fun a => forall t1, good_tracker t1 -> map fst (pt_stack t1) = (r, pos) :: map fst (pt_stack t) -> pt_positive t1 = pt_positive t ->
      follows (happens ((r, pos) :: map fst (pt_stack t)) (pt_positive t) a) t1 (act a t1)) body).
    { rewrite Forall_forall in *. intros a J t1. apply (IH a J (P' a J)). }
    destruct (acts_sim _ _ body IH' t0 G0) as (t1 & -> & Q & G1); [cbn [t0 pt_stack map fst]; rewrite Sk, marks_fst; reflexivity|reflexivity|]. cbn [obind].
    assert (L := enter_leave r (p_pos pos) ok (map to_event (flat_map (happens ((r, pos) :: map fst (pt_stack t)) (pt_positive t)) body)) (to_tracker t)).
    rewrite E0 in Q. rewrite <- Q in L. unfold leave_rule in L. cbn [to_tracker tk_stack] in L.
    destruct G1 as (G1 & G2). destruct (pt_stack t1) as [|[[a p] c] rest]; [discriminate L|]. cbn [map fst snd] in L. injection L as L.
    rewrite happens_attempt. unfold follows. rewrite map_app.
    assert (Em : map to_event (if tried_rule (map to_event (flat_map (happens ((r, pos) :: map fst (pt_stack t)) (pt_positive t)) body)) then [] else [PAttempt (map fst (pt_stack t)) r pos (pt_positive t) ok]) =
      if tried_rule (map to_event (flat_map (happens ((r, pos) :: map fst (pt_stack t)) (pt_positive t)) body)) then [] else [Attempt (map fst (tk_stack (to_tracker t))) r (p_pos pos) (tk_positive (to_tracker t)) ok]).
    { destruct (tried_rule _); [reflexivity|]. cbn [map to_event]. rewrite offsets_stack. reflexivity. }
    cbn [to_tracker tk_stack tk_positive] in Em. rewrite Em, <- L.
    assert (Gt : good_tracker (mkPTracker (pt_position t1) (pt_positive t1) (pt_attempts t1) rest)) by (split; [exact G1|inversion G2; assumption]).
    destruct c; [eexists; split; [reflexivity|]; split; [reflexivity|exact Gt]|]. exact (record_sim r pos ok _ P Gt).
Qed.
End Offsets.
