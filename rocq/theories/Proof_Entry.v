(** The state after a parse, the entry points on complete texts, and the error report. *)
From Coq Require Import List NArith ZArith Arith Bool Lia ZifyBool ZifyNat ZifyN Sorted.
From Verif Require Import Model_Text Model_Position Model_Span Model_Stack Model_Tracker Model_Node
  Spec_Text Spec_Peg Spec_Run Spec_Tracker Spec_Yield Proof_Text Proof_Position Proof_Span
  Proof_Tracker Proof_Terminal Proof_Run Proof_Complete Proof_Peg Proof_Fuel Proof_Yield Proof_Node.
Import ListNotations.
Open Scope list_scope.

Lemma sorted_nth : forall (m : list (option rule * tracked)), sorted_keys m ->
  forall i j u v, i < j -> nth_error (map fst m) i = Some u -> nth_error (map fst m) j = Some v -> key_lt u v.
Proof.
  unfold sorted_keys. intros m H. induction (map fst m) as [|x l IH]; intros i j u v L E1 E2.
  - destruct i; discriminate E1.
  - inversion H as [|? ? H1 H2]; subst. destruct j as [|j]; [lia|]. cbn [nth_error] in E2.
    destruct i as [|i].
    + injection E1 as <-. rewrite Forall_forall in H2. apply H2. eapply nth_error_In; eauto.
    + apply (IH H1 i j u v); auto. lia.
Qed.
Lemma represents_reports : forall start tr sm, represents start tr sm -> reports start tr sm.
Proof.
  intros start tr sm (H1 & H2 & H3). split; [exact H1|]. split; [apply sorted_nth; exact H2|].
  intros u. rewrite H3. cbn zeta. unfold group.
  destruct (squeeze (expected_list _ u tr)), (squeeze (unexpected_list _ u tr)), (misuse_list _ u tr); reflexivity.
Qed.

Section Entry.
Variable addr : N.
Variable s : text.
Variable env : rule -> rule_def.
Variable property : N -> char -> bool.
Notation chk := (check addr s env property).
Notation prs := (try_parse addr s env property).
Notation runs := (run addr s env property).
Notation runs_items := (run_items addr s env property).
Notation runs_choice := (run_choice addr s env property).
Notation runs_rep := (run_rep addr s env property).

(** Everything known about one call. *)
Lemma call : forall k n p K sv t, boundary s p -> valid_stack K ->
  let st := mkState (mkStack K sv) t in
  (chk k n p st = OutOfFuel /\ prs k n p st = OutOfFuel) \/
  exists pre post r tr, s = pre ++ post /\ p = blen pre /\
    runs (chain_of t) (tk_positive t) n pre post K r tr /\
    fits s (chk k n p st) (prs k n p st) pre sv t tr r.
Proof.
  intros k n p K sv t (pre & post & Hs & ->) HK. cbn zeta.
  destruct (sound addr s env property k n pre post K sv t Hs HK) as [H|(r & tr & HR & HF)]; [left; exact H|].
  right. exists pre, post, r, tr. auto.
Qed.

(** C01 *)
Lemma safe : forall k n p K sv t, boundary s p -> valid_stack K ->
  let st := mkState (mkStack K sv) t in
  prs k n p st <> Panic /\ chk k n p st <> Panic /\
  (forall p' v st', prs k n p st = Ret (Some (p', v), st') ->
     boundary s p' /\ p <= p' <= blen s /\ valid_stack (stk_items (st_stack st'))) /\
  (forall p' st', chk k n p st = Ret (Some p', st') ->
     boundary s p' /\ p <= p' <= blen s /\ valid_stack (stk_items (st_stack st'))).
Proof.
  intros k n p K sv t HB HK. cbn zeta.
  destruct (call k n p K sv t HB HK) as [(-> & ->)|(pre & post & r & tr & Hs & -> & HR & HF)].
  - repeat split; discriminate.
  - destruct r as [|pre' post' K' v].
    + destruct HF as (K' & -> & ->). repeat split; discriminate.
    + destruct HF as ((m & ->) & Hs' & HK' & -> & ->).
      assert (G : boundary s (blen (pre ++ m)) /\ blen pre <= blen (pre ++ m) <= blen s /\ valid_stack K').
      { split; [exists (pre ++ m), post'; auto|]. split; [|exact HK']. rewrite Hs', !blen_app. lia. }
      split; [discriminate|]. split; [discriminate|]. split.
      * intros p' v0 st' E. injection E as <- <- <-. exact G.
      * intros p' st' E. injection E as <- <-. exact G.
Qed.
(** C14 *)
Lemma check_forget : forall k n p K sv t, boundary s p -> valid_stack K ->
  let st := mkState (mkStack K sv) t in chk k n p st = forget (prs k n p st).
Proof.
  intros k n p K sv t HB HK. cbn zeta.
  destruct (call k n p K sv t HB HK) as [(-> & ->)|(pre & post & r & tr & Hs & -> & HR & HF)]; [reflexivity|].
  destruct r as [|pre' post' K' v].
  - destruct HF as (K' & -> & ->). reflexivity.
  - destruct HF as (_ & _ & _ & -> & ->). reflexivity.
Qed.

Lemma start_boundary : boundary s 0.
Proof. exists [], s. auto. Qed.

Lemma check_with_forget : forall k n p K sv t, boundary s p -> valid_stack K ->
  let st := mkState (mkStack K sv) t in
  check_with addr s env property k n p st =
  match try_parse_with addr s env property k n p st with
  | Ret (o, st') => Ret (option_map (fun _ => tt) o, st')
  | Panic => Panic
  | OutOfFuel => OutOfFuel
  end.
Proof.
  intros k n p K sv t HB HK. cbn zeta. unfold check_with, try_parse_with.
  rewrite (check_forget k n p K sv t HB HK).
  destruct (safe k n p K sv t HB HK) as (_ & _ & S1 & _).
  destruct (prs k n p (mkState (mkStack K sv) t)) as [[[[p' v]|] st']| |]; try reflexivity.
  destruct (S1 p' v st' eq_refl) as (HB' & _ & HK').
  cbn [forget option_map fst bind]. destruct st' as [[K' sv'] t']. cbn [st_stack stk_items] in HK'.
  unfold record_option_during_with, on_tracker. cbn [st_stack st_tracker snd].
  rewrite (check_forget k Eoi p' K' sv' _ HB' HK').
  destruct (prs k Eoi p' _) as [[[[q w]|] [stk2 tk2]]| |]; cbn [forget option_map fst obind]; try reflexivity;
    destruct (leave_rule _ _ _ _); reflexivity.
Qed.
Lemma text_check_forget : forall k n,
  text_check_partial addr s env property k n =
    match text_try_parse_partial addr s env property k n with
    | Ret (inl (p, _)) => Ret (inl p)
    | Ret (inr t) => Ret (inr t)
    | Panic => Panic
    | OutOfFuel => OutOfFuel
    end /\
  text_check addr s env property k n =
    match text_try_parse addr s env property k n with
    | Ret (inl _) => Ret (inl tt)
    | Ret (inr t) => Ret (inr t)
    | Panic => Panic
    | OutOfFuel => OutOfFuel
    end.
Proof.
  intros k n. unfold text_check_partial, text_try_parse_partial, text_check, text_try_parse, init_state, stack_new.
  rewrite (check_forget k n from_start [] [] _ start_boundary valid_nil).
  rewrite (check_with_forget k n from_start [] [] _ start_boundary valid_nil).
  split.
  - destruct (prs k n _ _) as [[[[p v]|] st]| |]; reflexivity.
  - destruct (try_parse_with _ _ _ _ k n _ _) as [[[v|] st]| |]; reflexivity.
Qed.

(** C15 *)
Lemma peg_sound : forall k n pre post K Ks sv t, s = pre ++ post -> Forall2 span_text K Ks ->
  let st := mkState (mkStack K sv) t in
  (forall p' v st', prs k n (blen pre) st = Ret (Some (p', v), st') ->
     exists m post' Ks', post = m ++ post' /\ p' = blen (pre ++ m) /\
       Forall2 span_text (stk_items (st_stack st')) Ks' /\
       peg env property n pre post Ks (Ok (pre ++ m) post' Ks')) /\
  (forall st', prs k n (blen pre) st = Ret (None, st') -> peg env property n pre post Ks Fail).
Proof.
  intros k n pre post K Ks sv t Hs HK. cbn zeta.
  assert (HV : valid_stack K) by (exists Ks; exact HK).
  destruct (sound addr s env property k n pre post K sv t Hs HV) as [(_ & ->)|(r & tr & HR & HF)].
  - split; discriminate.
  - pose proof (run_peg addr s env property _ _ _ _ _ _ _ _ HR Hs Ks HK) as HP.
    destruct r as [|pre' post' K' v].
    + destruct HF as (K' & _ & ->). split; [discriminate|]. intros _ _. exact HP.
    + destruct HF as (_ & _ & _ & _ & ->). destruct HP as (m & Ks' & -> & -> & HK' & HP).
      split; [|discriminate]. intros p' v0 st' E. injection E as <- <- <-.
      exists m, post', Ks'. auto.
Qed.
(** C16 *)
Lemma peg_complete : forall n pre post K Ks r, s = pre ++ post -> Forall2 span_text K Ks ->
  peg env property n pre post Ks r ->
  match r with
  | Fail => exists k0, forall k sv t, k0 <= k -> tk_positive t = true -> tk_stack t = [] ->
      exists st', prs k n (blen pre) (mkState (mkStack K sv) t) = Ret (None, st')
  | Ok pre' post' Ks' => exists k0 v K', Forall2 span_text K' Ks' /\
      forall k sv t, k0 <= k -> tk_positive t = true -> tk_stack t = [] ->
      exists st', prs k n (blen pre) (mkState (mkStack K sv) t) = Ret (Some (blen pre', v), st') /\
        st_stack st' = mkStack K' sv
  end.
Proof.
  intros n pre post K Ks r Hs HK HP.
  assert (HV : valid_stack K) by (exists Ks; exact HK).
  pose proof (peg_run addr s env property n pre post Ks r HP Hs [] true K HK) as HL.
  destruct r as [|pre' post' Ks'].
  - destruct HL as (tr & HR). destruct (complete addr s env property _ _ _ _ _ _ _ _ HR) as (k0 & H0).
    exists k0. intros k sv t L E1 E2. destruct (H0 k sv t L) as (K' & _ & E); auto.
    { unfold chain_of. rewrite E2. reflexivity. }
    eexists. exact E.
  - destruct HL as (m & K' & v & tr & -> & -> & HK' & HR).
    destruct (complete addr s env property _ _ _ _ _ _ _ _ HR) as (k0 & H0).
    exists k0, v, K'. split; [exact HK'|]. intros k sv t L E1 E2.
    destruct (H0 k sv t L) as (_ & _ & _ & _ & E); auto.
    { unfold chain_of. rewrite E2. reflexivity. }
    eexists. split; [exact E|reflexivity].
Qed.
Lemma peg_yields : forall n pre post K Ks, s = pre ++ post -> Forall2 span_text K Ks ->
  (forall m post' Ks', peg env property n pre post Ks (Ok (pre ++ m) post' Ks') ->
     exists v K', Forall2 span_text K' Ks' /\ yields addr s env property n (blen pre) K (Some (blen (pre ++ m), v, K'))) /\
  (peg env property n pre post Ks Fail -> yields addr s env property n (blen pre) K None).
Proof.
  intros n pre post K Ks Hs HK.
  assert (HV : valid_stack K) by (exists Ks; exact HK). split.
  - intros m post' Ks' HP.
    destruct (peg_run addr s env property n pre post Ks _ HP Hs [] true K HK) as (m2 & K' & v & tr & E & -> & HK' & HR).
    exists v, K'. split; [exact HK'|].
    apply (run_yields addr s env property _ _ _ _ _ _ _ _ Hs HV HR).
  - intros HP. destruct (peg_run addr s env property n pre post Ks _ HP Hs [] true K HK) as (tr & HR).
    apply (run_yields addr s env property _ _ _ _ _ _ _ _ Hs HV HR).
Qed.

(** C19 *)
Lemma never_failed : forall k t trivia max vec j i p st,
  match parse_rep j (chk k) (prs k) t trivia 0 max i vec p st with
  | Ret (Some (p', v), st') =>
      never_failed_rep j (chk k) (prs k) t trivia max i vec p st = Ret (p', v, st')
  | Ret (None, _) => False
  | Panic => never_failed_rep j (chk k) (prs k) t trivia max i vec p st = Panic
  | OutOfFuel => never_failed_rep j (chk k) (prs k) t trivia max i vec p st = OutOfFuel
  end.
Proof.
  intros k t trivia max vec j. revert vec. induction j as [|j IH]; intros vec i p st.
  - cbn [parse_rep never_failed_rep]. destruct (i <? max)%N; reflexivity.
  - cbn [parse_rep never_failed_rep]. destruct (i <? max)%N; [|reflexivity].
    destruct (restore_on_none (parse_unit (chk k) (prs k) t trivia i p) st) as [[[[q w]|] st']| |]; try reflexivity.
    + apply IH.
    + replace (i <? 0)%N with false by lia. reflexivity.
Qed.
Lemma never_failed_entry : forall k t trivia max p stk,
  rep_parse_with_partial addr s env property k t trivia max p stk =
  match prs (S k) (RepMax t trivia max) p (mkState stk (tracker_new p)) with
  | Ret (Some (p', v), st') => Ret (p', v, st_stack st')
  | Ret (None, _) => Panic
  | Panic => Panic
  | OutOfFuel => OutOfFuel
  end.
Proof.
  intros k t trivia max p stk. unfold rep_parse_with_partial, RepMax. cbn [try_parse].
  pose proof (never_failed k t trivia max [] k 0%N p (mkState stk (tracker_new p))) as H.
  destruct (parse_rep _ _ _ _ _ _ _ _ _ _ _) as [[[[p' v]|] st']| |]; [rewrite H; reflexivity|contradiction|rewrite H; reflexivity..].
Qed.
Lemma zero_min_never_fails : forall k t trivia max p st st',
  prs k (RepMax t trivia max) p st <> Ret (None, st') /\ chk k (RepMax t trivia max) p st <> Ret (None, st') /\
  prs k (Opt t) p st <> Ret (None, st') /\ chk k (Opt t) p st <> Ret (None, st').
Proof.
  intros k t trivia max p st st'. destruct k as [|k]; [repeat split; discriminate|]. unfold RepMax.
  cbn [try_parse check]. repeat split.
  - intros C. pose proof (never_failed k t trivia max [] k 0%N p st) as H. rewrite C in H. exact H.
  - assert (G : forall j i p st, check_rep j (chk k) t trivia 0 max i p st <> Ret (None, st')); [|apply G].
    induction j as [|j IH]; intros i q st0; cbn [check_rep]; destruct (i <? max)%N; try discriminate.
    destruct (restore_on_none (check_unit (chk k) t trivia i q) st0) as [[[x|] st1]| |]; try discriminate.
    + apply IH.
    + replace (i <? 0)%N with false by lia. discriminate.
  - destruct (prs k t p _) as [[[[q v]|] st1]| |]; discriminate.
  - destruct (chk k t p _) as [[[q|] st1]| |]; discriminate.
Qed.

(** C21 *)
Lemma saved_kept : forall k n p K sv t, boundary s p -> valid_stack K ->
  (forall o st', prs k n p (mkState (mkStack K sv) t) = Ret (o, st') -> stk_saved (st_stack st') = sv) /\
  (forall o st', chk k n p (mkState (mkStack K sv) t) = Ret (o, st') -> stk_saved (st_stack st') = sv).
Proof.
  intros k n p K sv t HB HK.
  destruct (call k n p K sv t HB HK) as [(-> & ->)|(pre & post & r & tr & Hs & -> & HR & HF)]; [split; discriminate|].
  destruct r as [|pre' post' K' v].
  - destruct HF as (K' & -> & ->). split; intros o st' E; injection E as <- <-; reflexivity.
  - destruct HF as (_ & _ & _ & -> & ->). split; intros o st' E; injection E as <- <-; reflexivity.
Qed.
Lemma choice_restores : forall k ts p K sv t st', boundary s p -> valid_stack K ->
  prs k (Choice ts) p (mkState (mkStack K sv) t) = Ret (None, st') -> st_stack st' = mkStack K sv.
Proof.
  intros k ts p K sv t st' HB HK. destruct k as [|k]; [discriminate|]. cbn [try_parse].
  generalize 0. revert t. induction ts as [|n ts IH]; intros t i; cbn [parse_choice].
  - intros E. injection E as <-. reflexivity.
  - unfold on_stack at 1. cbn [st_stack st_tracker]. unfold stack_snapshot. cbn [stk_items stk_saved].
    pose proof (proj1 (saved_kept k n p K (K :: sv) t HB HK)) as SV.
    destruct (prs k n p _) as [[[[q v]|] st1]| |]; try discriminate.
    specialize (SV None st1 eq_refl). destruct st1 as [[K1 sv1] t1]. cbn [st_stack stk_saved] in SV. subst sv1.
    unfold on_stack, stack_restore. cbn [st_stack stk_saved st_tracker]. apply IH.
Qed.
Lemma optional_restores : forall k n p K sv t p' st', boundary s p -> valid_stack K ->
  prs k (Opt n) p (mkState (mkStack K sv) t) = Ret (Some (p', VOpt None), st') ->
  p' = p /\ st_stack st' = mkStack K sv.
Proof.
  intros k n p K sv t p' st' HB HK. destruct k as [|k]; [discriminate|]. cbn [try_parse].
  unfold on_stack at 1. cbn [st_stack st_tracker]. unfold stack_snapshot. cbn [stk_items stk_saved].
  pose proof (proj1 (saved_kept k n p K (K :: sv) t HB HK)) as SV.
  destruct (prs k n p _) as [[[[q v]|] st1]| |]; try discriminate.
  specialize (SV None st1 eq_refl). destruct st1 as [[K1 sv1] t1]. cbn [st_stack stk_saved] in SV. subst sv1.
  intros E. injection E as <- <-. split; reflexivity.
Qed.
Lemma round_restores : forall k n trivia i p K sv t st', boundary s p -> valid_stack K ->
  restore_on_none (parse_unit (chk k) (prs k) n trivia i p) (mkState (mkStack K sv) t) = Ret (None, st') ->
  st_stack st' = mkStack K sv.
Proof.
  intros k n trivia i p K sv t st' HB HK. unfold restore_on_none, parse_unit.
  unfold on_stack at 1. cbn [st_stack st_tracker]. unfold stack_snapshot. cbn [stk_items stk_saved].
  assert (F : forall p K t, boundary s p -> valid_stack K -> forall q,
    match prs k n p (mkState (mkStack K q) t) with Ret (None, st1) => stk_saved (st_stack st1) = q | _ => True end).
  { intros p0 K0 t0 HB0 HK0 q. pose proof (proj1 (saved_kept k n p0 K0 q t0 HB0 HK0)) as SV.
    destruct (prs k n p0 _) as [[[x|] st1]| |]; auto. apply (SV None). reflexivity. }
  assert (R : forall st1 (q : list (list span)), stk_saved (st_stack st1) = K :: sv -> st_stack (on_stack stack_restore st1) = mkStack K sv).
  { intros [[K1 sv1] t1] _ E. cbn in *. subst sv1. reflexivity. }
  destruct (0 <? i)%N.
  - pose proof (proj2 (saved_kept k trivia p K (K :: sv) t HB HK)) as SV.
    destruct (safe k trivia p K (K :: sv) t HB HK) as (_ & _ & _ & SA).
    destruct (chk k trivia p _) as [[[q|] st1]| |]; cbn [bind]; try discriminate.
    + destruct (SA q st1 eq_refl) as (HB' & _ & HK').
      specialize (SV _ _ eq_refl). destruct st1 as [[K1 sv1] t1]. cbn [st_stack stk_saved stk_items] in *. subst sv1.
      specialize (F q K1 t1 HB' HK' (K :: sv)).
      destruct (prs k n q _) as [[[x|] st2]| |]; try discriminate.
      intros E. injection E as <-. apply (R st2 []). exact F.
    + intros E. injection E as <-. apply (R st1 []). apply (SV _ _ eq_refl).
  - cbn [bind]. specialize (F p K t HB HK (K :: sv)).
    destruct (prs k n p _) as [[[x|] st2]| |]; try discriminate.
    intros E. injection E as <-. apply (R st2 []). exact F.
Qed.
(** C20 *)
Lemma predicate_stack : forall k n p K sv t o st', boundary s p -> valid_stack K ->
  (prs k (Positive n) p (mkState (mkStack K sv) t) = Ret (o, st') \/
   prs k (Negative n) p (mkState (mkStack K sv) t) = Ret (o, st')) ->
  st_stack st' = mkStack K sv /\ match o with Some (p', _) => p' = p | None => True end.
Proof.
  intros k n p K sv t o st' HB HK H. destruct k as [|k]; [destruct H; discriminate|].
  assert (R : forall st1, stk_saved (st_stack st1) = K :: sv -> st_stack (on_stack stack_restore st1) = mkStack K sv).
  { intros [[K1 sv1] t1] E. cbn in *. subst sv1. reflexivity. }
  destruct H as [H|H]; cbn [try_parse] in H; unfold during in H; cbn beta zeta in H;
    unfold on_stack at 1, on_tracker at 1 in H; cbn [st_stack st_tracker] in H;
    unfold stack_snapshot in H; cbn [stk_items stk_saved] in H.
  - pose proof (proj1 (saved_kept k n p K (K :: sv) (set_positive true t) HB HK)) as SV.
    destruct (prs k n p _) as [[[[q v]|] st1]| |]; try discriminate; cbn [obind] in H;
      injection H as <- <-; (split; [|auto]); unfold on_tracker; cbn [st_stack]; apply R; eapply SV; reflexivity.
  - pose proof (proj2 (saved_kept k n p K (K :: sv) (set_positive false t) HB HK)) as SV.
    destruct (chk k n p _) as [[[q|] st1]| |]; try discriminate; cbn [obind] in H;
      injection H as <- <-; (split; [|auto]); unfold on_tracker; cbn [st_stack]; apply R; eapply SV; reflexivity.
Qed.

(** C31 *)
Lemma balanced : forall k n p K sv t o st', boundary s p -> valid_stack K ->
  prs k n p (mkState (mkStack K sv) t) = Ret (o, st') ->
  map fst (tk_stack (st_tracker st')) = map fst (tk_stack t) /\
  tl (tk_stack (st_tracker st')) = tl (tk_stack t) /\
  tk_positive (st_tracker st') = tk_positive t /\
  tk_position t <= tk_position (st_tracker st').
Proof.
  intros k n p K sv t o st' HB HK H.
  assert (G : exists tr, st_tracker st' = play tr t).
  { destruct (call k n p K sv t HB HK) as [(_ & E)|(pre & post & r & tr & Hs & -> & HR & HF)]; [congruence|].
    destruct r as [|pre' post' K' v].
    - destruct HF as (K' & _ & E). rewrite E in H. injection H as <- <-. exists tr. reflexivity.
    - destruct HF as (_ & _ & _ & _ & E). rewrite E in H. injection H as <- <-. exists tr. reflexivity. }
  destruct G as (tr & ->). split; [apply play_stack_fst|]. split; [|split; [apply play_positive|]].
  - unfold play. cbn [tk_stack]. destruct (tk_stack t) as [|[[? ?] ?] ?]; reflexivity.
  - unfold play. cbn [tk_position].
    assert (M : forall tr sm, fst sm <= fst (play_all tr sm)).
    { clear. unfold play_all. intros tr. induction tr as [|e tr IH]; intros sm; [simpl; lia|]. cbn [fold_left].
      etransitivity; [|apply IH].
      assert (PR : forall q sm, fst sm <= fst (snd (prep q sm))).
      { clear. intros q sm. unfold prep. destruct (Nat.compare_spec q (fst sm)); simpl; lia. }
      destruct e as [ch r q pol ok|ch q x]; cbn [play_event]; specialize (PR q sm);
        destruct (prep q sm) as [b sm']; cbn [snd] in PR.
      - destruct (b && _); cbn [fst]; exact PR.
      - destruct b; cbn [fst]; exact PR. }
    apply (M tr (tk_position t, tk_attempts t)).
Qed.

(** C29, C30 *)
Lemma run_events :
  (forall chain pol n pre post K r tr, runs chain pol n pre post K r tr -> s = pre ++ post -> valid_stack K ->
     Forall (fun e => boundary s (event_at e)) tr) /\
  (forall chain pol items pre post K r tr, runs_items chain pol items pre post K r tr -> s = pre ++ post -> valid_stack K ->
     Forall (fun e => boundary s (event_at e)) tr) /\
  (forall chain pol (i : nat) ts pre post K r tr, runs_choice chain pol i ts pre post K r tr -> s = pre ++ post -> valid_stack K ->
     Forall (fun e => boundary s (event_at e)) tr) /\
  (forall chain pol x y mi ma i pre post K r tr, runs_rep chain pol x y mi ma i pre post K r tr -> s = pre ++ post -> valid_stack K ->
     Forall (fun e => boundary s (event_at e)) tr).
Proof.
  assert (IW : forall chain pol items pre post K r tr, runs_items chain pol items pre post K r tr ->
    s = pre ++ post -> valid_stack K -> well s pre r).
  { intros chain pol items pre post K [|pre' post' K' v] tr H Hs (Ks & HK); [exact I|].
    destruct (proj1 (proj2 (run_peg_all addr s env property)) _ _ _ _ _ _ _ _ H Hs Ks HK)
      as (m & Ks' & -> & -> & HK' & _).
    simpl. repeat split; [eauto| |exists Ks'; exact HK']. rewrite <- app_assoc. exact Hs. }
  assert (BD : forall pre post, s = pre ++ post -> boundary s (blen pre)).
  { intros pre post E. exists pre, post. auto. }
  apply run_mutind; intros; auto; try (apply Forall_app; split; auto; fail).
  - apply Forall_forall. intros e HI. apply in_map_iff in HI. destruct HI as (x & <- & _). eapply BD; eauto.
  - apply Forall_app. split; auto. destruct (tried_rule tr); auto. constructor; auto. eapply BD; eauto.
  - apply Forall_app. split; auto. destruct (tried_rule tr); auto. constructor; auto. eapply BD; eauto.
  - destruct (run_well addr s env property _ _ _ _ _ _ _ _ r H1 H2) as (_ & W1 & W2).
    apply Forall_app. split; auto.
  - destruct (run_well addr s env property _ _ _ _ _ _ _ _ r H1 H2) as (_ & W1 & W2).
    apply Forall_app. split; auto.
  - destruct (IW _ _ _ _ _ _ _ _ r H1 H2) as (_ & W1 & W2). apply Forall_app. split; auto.
  - destruct (IW _ _ _ _ _ _ _ _ r H1 H2) as (_ & W1 & W2). apply Forall_app. split; auto.
Qed.
Lemma furthest_boundary : forall start tr, boundary s start -> Forall (fun e => boundary s (event_at e)) tr ->
  boundary s (furthest start tr).
Proof.
  intros start tr HB H. unfold furthest. induction H as [|e tr He _ IH]; [exact HB|]. simpl.
  destruct (Nat.max_spec (event_at e) (fold_right Nat.max start (map event_at tr))) as [(_ & ->)|(_ & ->)]; auto.
Qed.
Lemma play_new : forall tr p, finish (play tr (tracker_new p)) = play_all tr (p, []).
Proof. intros. unfold finish, play. simpl. destruct (play_all tr (p, [])). reflexivity. Qed.
Lemma partial_report : forall k n t,
  text_try_parse_partial addr s env property k n = Ret (inr t) ->
  exists tr, runs [] true n [] s [] RFail tr /\ reports 0 tr (finish t) /\ boundary s (tk_position t).
Proof.
  intros k n t H. unfold text_try_parse_partial, init_state, stack_new in H.
  destruct (sound addr s env property k n [] s [] [] (tracker_new from_start) eq_refl valid_nil) as [(_ & E)|(r & tr & HR & HF)].
  { change (blen []) with from_start in E. rewrite E in H. discriminate H. }
  change (blen []) with from_start in HF. destruct r as [|pre' post' K' v].
  - destruct HF as (K' & _ & E). rewrite E in H. injection H as <-. exists tr. split; [exact HR|].
    assert (RP : reports 0 tr (finish (play tr (tracker_new from_start)))).
    { rewrite play_new. apply represents_reports, represents_all. }
    split; [exact RP|]. destruct RP as (E1 & _). cbn [finish fst] in E1. cbn [st_tracker]. rewrite E1.
    apply furthest_boundary; [apply start_boundary|].
    apply (proj1 run_events _ _ _ _ _ _ _ _ HR eq_refl valid_nil).
  - destruct HF as (_ & _ & _ & _ & E). rewrite E in H. discriminate H.
Qed.

(** C24 *)
Definition eoi_attempt (p : nat) (ok : bool) : event := Attempt [] EOI p true ok.
Lemma eoi_step : forall k p K sv tk, tk_stack tk = [] -> tk_positive tk = true ->
  record_option_during_with p (fun st => prs (S k) Eoi p st) EOI (mkState (mkStack K sv) tk) =
  Ret (if at_end s p then Some (p, VUnit) else None,
       mkState (mkStack K sv) (play [eoi_attempt p (at_end s p)] tk)).
Proof.
  intros k p K sv tk E1 E2. unfold record_option_during_with. unfold on_tracker at 1. cbn [st_stack st_tracker try_parse].
  assert (L : forall ok, leave_rule EOI p ok (enter_rule EOI p tk) = Ret (play [eoi_attempt p ok] tk)).
  { intros ok. pose proof (enter_leave EOI p ok [] tk) as G. rewrite play_nil in G. rewrite G. cbn [tried_rule existsb app].
    unfold eoi_attempt. rewrite E1, E2. reflexivity. }
  destruct (at_end s p); cbn [obind st_tracker st_stack]; rewrite L; reflexivity.
Qed.
Lemma full_outcome : forall k n,
  (text_try_parse addr s env property k n = OutOfFuel /\ text_try_parse_partial addr s env property k n = OutOfFuel) \/
  exists r tr, runs [] true n [] s [] r tr /\
  match r with
  | RFail => text_try_parse_partial addr s env property k n = Ret (inr (play tr (tracker_new 0))) /\
             text_try_parse addr s env property k n = Ret (inr (play tr (tracker_new 0)))
  | ROk pre' post' K' v =>
      s = pre' ++ post' /\
      text_try_parse_partial addr s env property k n = Ret (inl (blen pre', v)) /\
      text_try_parse addr s env property k n =
        match post' with
        | [] => Ret (inl v)
        | _ => Ret (inr (play (tr ++ [eoi_attempt (blen pre') false]) (tracker_new 0)))
        end
  end.
Proof.
  intros k n. unfold text_try_parse_partial, text_try_parse, init_state, stack_new, try_parse_with.
  destruct (sound addr s env property k n [] s [] [] (tracker_new from_start) eq_refl valid_nil) as [(_ & E)|(r & tr & HR & HF)];
    change (blen []) with from_start in *.
  { left. rewrite E. split; reflexivity. }
  right. exists r, tr. split; [exact HR|]. destruct r as [|pre' post' K' v].
  - destruct HF as (K' & _ & ->). split; reflexivity.
  - destruct HF as (_ & Hs & HK' & _ & E). split; [exact Hs|]. destruct k as [|k]; [discriminate E|].
    rewrite E. split; [reflexivity|]. cbn [bind fst snd].
    rewrite eoi_step; [|unfold play; reflexivity|apply play_positive].
    assert (AE : at_end s (blen pre') = match post' with [] => true | _ => false end).
    { unfold at_end. rewrite Hs, blen_app. destruct post' as [|c post'].
      - cbn [blen]. apply Nat.eqb_eq. lia.
      - cbn [blen]. pose proof (len_utf8_pos c). apply Nat.eqb_neq. lia. }
    rewrite AE. destruct post'; cbn [bind to_result st_tracker]; [reflexivity|]. rewrite play_app. reflexivity.
Qed.
Lemma full_ok : forall k n v,
  text_try_parse addr s env property k n = Ret (inl v) <->
  text_try_parse_partial addr s env property k n = Ret (inl (blen s, v)).
Proof.
  intros k n v. destruct (full_outcome k n) as [(-> & ->)|(r & tr & _ & H)]; [split; discriminate|].
  destruct r as [|pre' post' K' w].
  - destruct H as (-> & ->). split; discriminate.
  - destruct H as (Hs & -> & ->). rewrite Hs, blen_app. destruct post' as [|c post'].
    + cbn [blen]. rewrite Nat.add_0_r. split; congruence.
    + cbn [blen]. pose proof (len_utf8_pos c). split; [discriminate|]. intros E. injection E as E _. lia.
Qed.
Lemma full_error : forall k n t,
  text_try_parse addr s env property k n = Ret (inr t) ->
  text_try_parse_partial addr s env property k n = Ret (inr t) \/
  exists p v tr, text_try_parse_partial addr s env property k n = Ret (inl (p, v)) /\ p < blen s /\
    (exists pre' post' K', runs [] true n [] s [] (ROk pre' post' K' v) tr) /\
    reports 0 (tr ++ [Attempt [] EOI p true false]) (finish t) /\ boundary s (tk_position t) /\ p <= tk_position t /\
    (furthest 0 tr <= p -> tk_position t = p /\
       exists a b c, lookup (tk_attempts t) None = Some (a, b, c) /\ In EOI a) /\
    (p < furthest 0 tr -> reports 0 tr (finish t)).
Proof.
  intros k n t. destruct (full_outcome k n) as [(-> & ->)|(r & tr & HR & H)]; [discriminate|].
  destruct r as [|pre' post' K' w].
  - destruct H as (-> & ->). intros E. left. congruence.
  - destruct H as (Hs & -> & ->). destruct post' as [|c post']; [discriminate|].
    intros E. injection E as <-. right. exists (blen pre'), w, tr. split; [reflexivity|].
    assert (LT : blen pre' < blen s).
    { rewrite Hs, blen_app. cbn [blen]. pose proof (len_utf8_pos c). lia. }
    split; [exact LT|]. split; [eauto|].
    assert (RP : forall tr, reports 0 tr (finish (play tr (tracker_new 0)))).
    { intros tr0. rewrite play_new. apply represents_reports, represents_all. }
    split; [apply RP|]. pose proof (RP (tr ++ [eoi_attempt (blen pre') false])) as (E1 & _ & E3).
    cbn [finish fst snd] in E1, E3.
    assert (B1 : Forall (fun e => boundary s (event_at e)) tr)
      by (apply (proj1 run_events _ _ _ _ _ _ _ _ HR eq_refl valid_nil)).
    assert (BP : boundary s (blen pre')) by (exists pre', (c :: post'); auto).
    rewrite E1. split.
    { apply furthest_boundary; [apply start_boundary|]. apply Forall_app. split; [exact B1|]. constructor; auto. }
    rewrite furthest_snoc. cbn [event_at eoi_attempt]. split; [lia|]. split.
    + intros L. split; [lia|]. specialize (E3 None). rewrite E3.
      rewrite furthest_snoc. cbn [event_at eoi_attempt]. replace (Nat.max (furthest 0 tr) (blen pre')) with (blen pre') by lia.
      assert (HI : In EOI (squeeze (expected_list (blen pre') None (tr ++ [eoi_attempt (blen pre') false])))).
      { apply squeeze_in. apply expected_list_in. exists (eoi_attempt (blen pre') false). split.
        - apply in_or_app. right. left. reflexivity.
        - exists []. split; reflexivity. }
      clear E3. destruct (squeeze (expected_list _ _ _)) as [|x l]; [destruct HI|]. do 3 eexists. split; [reflexivity|exact HI].
    + intros L. rewrite play_new. unfold play_all. rewrite fold_left_app. cbn [fold_left].
      pose proof (represents_all 0 tr) as RT. destruct RT as (R1 & R2 & R3).
      assert (EV : play_event (play_all tr (0, [])) (eoi_attempt (blen pre') false) = play_all tr (0, [])).
      { cbn [play_event eoi_attempt]. unfold prep. rewrite R1.
        destruct (Nat.compare_spec (blen pre') (furthest 0 tr)); try lia. reflexivity. }
      unfold play_all in EV. rewrite EV. apply represents_reports. split; [exact R1|]. split; assumption.
Qed.
End Entry.

(** What is listed in a report. *)
Lemma reports_members : forall start tr rep, reports start tr rep ->
  forall u, let p := furthest start tr in
  (forall r, (exists a b c, lookup (snd rep) u = Some (a, b, c) /\ In r a) <->
             exists e, In e tr /\ expected_event p u r e) /\
  (forall r, (exists a b c, lookup (snd rep) u = Some (a, b, c) /\ In r b) <->
             exists e, In e tr /\ unexpected_event p u r e) /\
  (forall x, (exists a b c, lookup (snd rep) u = Some (a, b, c) /\ In x c) <->
             exists e, In e tr /\ misuse_event p u x e).
Proof.
  intros start tr rep (_ & _ & H) u. cbn zeta. specialize (H u).
  set (p := furthest start tr) in *.
  set (A := squeeze (expected_list p u tr)) in *. set (B := squeeze (unexpected_list p u tr)) in *.
  set (C := misuse_list p u tr) in *.
  assert (L : forall a b c, lookup (snd rep) u = Some (a, b, c) <-> (a, b, c) = (A, B, C) /\ (A, B, C) <> ([], [], [])).
  { intros a b c. rewrite H. destruct A, B, C; split; intro E;
      try (injection E as <- <- <-; split; [reflexivity|discriminate]);
      try (destruct E as (E & N); injection E as -> -> ->; reflexivity);
      try discriminate E; destruct E as (E & N); exfalso; apply N; reflexivity. }
  assert (G : forall (X : Type) (f : list rule -> list rule -> list special_error -> list X) (x : X),
    (f [] [] [] = []) ->
    ((exists a b c, lookup (snd rep) u = Some (a, b, c) /\ In x (f a b c)) <-> In x (f A B C))).
  { intros X f x E. split.
    - intros (a & b & c & E1 & I). apply L in E1. destruct E1 as (E1 & _). injection E1 as -> -> ->. exact I.
    - intro I. exists A, B, C. split; [|exact I]. apply L. split; [reflexivity|].
      intro E1. injection E1 as E1 E2 E3. rewrite E1, E2, E3, E in I. exact I. }
  split; [|split].
  - intro r. rewrite (G rule (fun a _ _ => a) r eq_refl). unfold A. rewrite squeeze_in. apply expected_list_in.
  - intro r. rewrite (G rule (fun _ b _ => b) r eq_refl). unfold B. rewrite squeeze_in. apply unexpected_list_in.
  - intro x. rewrite (G special_error (fun _ _ c => c) x eq_refl). apply misuse_list_in.
Qed.
