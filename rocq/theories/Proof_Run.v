From Coq Require Import List NArith ZArith Arith Bool Lia ZifyBool ZifyNat ZifyN.
From Verif Require Import Model_Text Model_Position Model_Span Model_Stack Model_Tracker Model_Node
  Spec_Text Spec_Peg Spec_Run Spec_Tracker Proof_Text Proof_Position Proof_Span Proof_Tracker
  Proof_Terminal.
Import ListNotations.
Open Scope list_scope.

(** All spans on the stack denote texts of their own inputs. *)
Definition valid_stack (K : list span) : Prop := exists Ks, Forall2 span_text K Ks.

Lemma valid_nil : valid_stack [].
Proof. exists []. constructor. Qed.
Lemma valid_cons : forall sp t K, span_text sp t -> valid_stack K -> valid_stack (sp :: K).
Proof. intros sp t K H (Ks & HK). exists (t :: Ks). constructor; auto. Qed.

Section Run.
Variable addr : N.
Variable s : text.
Variable env : rule -> rule_def.
Variable property : N -> char -> bool.
Notation chk := (check addr s env property).
Notation prs := (try_parse addr s env property).
Notation runs := (run addr s env property).
Notation runs_items := (run_items addr s env property).
Notation runs_choice := (run_choice addr s env property).
Notation runs_rep := (run_rep addr s env property).

(** The two entry points return what the relation prescribes. *)
Definition fits {V : Type} (rc : res nat) (rp : res (nat * V)) (pre : text)
  (sv : list (list span)) (t : tracker) (tr : list event) (r : rresult V) : Prop :=
  match r with
  | RFail => exists K',
      let st' := mkState (mkStack K' sv) (play tr t) in
      rc = Ret (None, st') /\ rp = Ret (None, st')
  | ROk pre' post' K' v =>
      (exists m, pre' = pre ++ m) /\ s = pre' ++ post' /\ valid_stack K' /\
      let st' := mkState (mkStack K' sv) (play tr t) in
      rc = Ret (Some (blen pre'), st') /\ rp = Ret (Some (blen pre', v), st')
  end.

Definition chain_of (t : tracker) : list (rule * nat) := map fst (tk_stack t).

Definition sound_at (k : nat) : Prop := forall n pre post K sv t,
  s = pre ++ post -> valid_stack K ->
  let st := mkState (mkStack K sv) t in
  (chk k n (blen pre) st = OutOfFuel /\ prs k n (blen pre) st = OutOfFuel) \/
  exists r tr, runs (chain_of t) (tk_positive t) n pre post K r tr /\
               fits (chk k n (blen pre) st) (prs k n (blen pre) st) pre sv t tr r.

Lemma chain_play : forall tr t, chain_of (play tr t) = chain_of t.
Proof. intros. apply play_stack_fst. Qed.

Lemma sound_terminal : forall k n pre post K sv t,
  is_terminal n = true -> s = pre ++ post -> valid_stack K ->
  let st := mkState (mkStack K sv) t in
  (chk (S k) n (blen pre) st = OutOfFuel /\ prs (S k) n (blen pre) st = OutOfFuel) \/
  exists r tr, runs (chain_of t) (tk_positive t) n pre post K r tr /\
               fits (chk (S k) n (blen pre) st) (prs (S k) n (blen pre) st) pre sv t tr r.
Proof.
  intros k n pre post K sv t Hn Hs (Ks & HK) st. subst st.
  destruct (terminal_step addr s env property k n pre post K Ks sv t Hn Hs HK)
    as [(_ & _ & H)|(r & HT & H)]; [left; exact H|right].
  destruct r as [|pre' post' Ks'].
  - destruct H as (K' & H). exists RFail. eexists. split.
    + eapply U_terminal_fail; eauto.
    + exists K'. exact H.
  - destruct H as (m & -> & Hp & HK' & H1 & H2).
    exists (ROk (pre ++ m) post' (terminal_stack n K) (terminal_value addr s n pre m K)), [].
    split.
    + eapply U_terminal_ok; eauto.
    + cbn [fits]. rewrite play_nil. repeat split; eauto.
      * rewrite <- app_assoc. congruence.
      * exists Ks'. exact HK'.
Qed.

(** Sequences. *)
Definition rest_items (fields : list (node * node)) : list (bool * node) :=
  flat_map (fun f => [(false, snd f); (true, fst f)]) fields.

Lemma sound_seq : forall k, sound_at k -> forall fields first pre post K sv t,
  s = pre ++ post -> valid_stack K ->
  let st := mkState (mkStack K sv) t in
  let items := if first : bool then kept_fields fields else rest_items fields in
  let rc := check_seq (chk k) first fields (blen pre) st in
  let rp := parse_seq (chk k) (prs k) first fields (blen pre) st in
  (rc = OutOfFuel /\ rp = OutOfFuel) \/
  exists r tr, runs_items (chain_of t) (tk_positive t) items pre post K r tr /\
               fits rc rp pre sv t tr r.
Proof.
  intros k IH. induction fields as [|[f trivia] fields IHf]; intros first pre post K sv t Hs HK;
    cbn zeta.
  - right. exists (ROk pre post K []), []. split.
    + destruct first; constructor.
    + cbn [fits]. rewrite play_nil. repeat split; auto.
      exists []. rewrite app_nil_r. reflexivity.
  - cbn [check_seq parse_seq].
    (* the field itself and the rest, from any state *)
    assert (F : forall pre post K sv t, s = pre ++ post -> valid_stack K ->
      let st := mkState (mkStack K sv) t in
      let rc := bind (chk k f (blen pre) st) (fun pos st => check_seq (chk k) false fields pos st) in
      let rp := bind (prs k f (blen pre) st) (fun pv st =>
                bind (parse_seq (chk k) (prs k) false fields (fst pv) st) (fun pvs st =>
                Ret (Some (fst pvs, snd pv :: snd pvs), st))) in
      (rc = OutOfFuel /\ rp = OutOfFuel) \/
      exists r tr, runs_items (chain_of t) (tk_positive t) ((true, f) :: rest_items fields) pre post K r tr /\
               fits rc rp pre sv t tr r).
    { clear pre post K sv t Hs HK first. intros pre post K sv t Hs HK. cbn zeta.
      destruct (IH f pre post K sv t Hs HK) as [(-> & ->)|(r & tr & HR & HF)];
        [left; split; reflexivity|].
      destruct r as [|pre' post' K' v].
      - destruct HF as (K' & -> & ->). right. exists RFail, tr. split.
        + apply UI_fail. exact HR.
        + exists K'. split; reflexivity.
      - destruct HF as ((m & ->) & Hs' & HK' & -> & ->). cbn [bind fst snd].
        destruct (IHf false (pre ++ m) post' K' sv (play tr t) Hs' HK')
          as [(-> & ->)|(r2 & tr2 & HR2 & HF2)]; [left; split; reflexivity|].
        right. rewrite chain_play, play_positive in HR2. destruct r2 as [|pre2 post2 K2 vs].
        + destruct HF2 as (K2 & -> & ->). exists RFail, (tr ++ tr2). split.
          * eapply UI_later; eauto.
          * exists K2. rewrite play_app. split; reflexivity.
        + destruct HF2 as ((m2 & ->) & Hs2 & HK2 & -> & ->).
          exists (ROk ((pre ++ m) ++ m2) post2 K2 (v :: vs)), (tr ++ tr2). split.
          * change (v :: vs) with (keep true v vs). eapply UI_cons; eauto.
          * cbn [fits bind fst snd]. rewrite play_app. repeat split; auto.
            exists (m ++ m2). rewrite app_assoc. reflexivity. }
    destruct first.
    + cbn [bind]. exact (F pre post K sv t Hs HK).
    + destruct (IH trivia pre post K sv t Hs HK) as [(-> & _)|(r & tr & HR & HF)];
        [left; split; reflexivity|].
      change (rest_items ((f, trivia) :: fields))
        with ((false, trivia) :: (true, f) :: rest_items fields).
      destruct r as [|pre' post' K' v].
      * destruct HF as (K' & -> & _). right. exists RFail, tr. split.
        -- apply UI_fail. exact HR.
        -- exists K'. split; reflexivity.
      * destruct HF as ((m & ->) & Hs' & HK' & -> & _). cbn [bind].
        destruct (F (pre ++ m) post' K' sv (play tr t) Hs' HK') as [(-> & ->)|(r2 & tr2 & HR2 & HF2)];
          [left; split; reflexivity|].
        right. rewrite chain_play, play_positive in HR2. destruct r2 as [|pre2 post2 K2 vs].
        -- destruct HF2 as (K2 & -> & ->). exists RFail, (tr ++ tr2). split.
           ++ eapply UI_later; eauto.
           ++ exists K2. rewrite play_app. split; reflexivity.
        -- destruct HF2 as ((m2 & ->) & Hs2 & HK2 & -> & ->).
           exists (ROk ((pre ++ m) ++ m2) post2 K2 vs), (tr ++ tr2). split.
           ++ change vs with (keep false v vs). eapply UI_cons; eauto.
           ++ cbn [fits]. rewrite play_app. repeat split; auto.
              exists (m ++ m2). rewrite app_assoc. reflexivity.
Qed.

(** Choices. *)
Lemma sound_choice : forall k, sound_at k -> forall ts i pre post K sv t,
  s = pre ++ post -> valid_stack K ->
  let st := mkState (mkStack K sv) t in
  let rc := check_choice (chk k) ts (blen pre) st in
  let rp := parse_choice (prs k) i ts (blen pre) st in
  (rc = OutOfFuel /\ rp = OutOfFuel) \/
  exists r tr, runs_choice (chain_of t) (tk_positive t) i ts pre post K r tr /\
               fits rc rp pre sv t tr r.
Proof.
  intros k IH. induction ts as [|x ts IHt]; intros i pre post K sv t Hs HK; cbn zeta.
  - right. exists RFail, []. split; [constructor|]. exists K. rewrite play_nil. split; reflexivity.
  - cbn [check_choice parse_choice].
    change (on_stack stack_snapshot (mkState (mkStack K sv) t)) with (mkState (mkStack K (K :: sv)) t).
    destruct (IH x pre post K (K :: sv) t Hs HK) as [(-> & ->)|(r & tr & HR & HF)];
      [left; split; reflexivity|].
    destruct r as [|pre' post' K' v].
    + destruct HF as (K' & -> & ->).
      change (on_stack stack_restore (mkState (mkStack K' (K :: sv)) (play tr t)))
        with (mkState (mkStack K sv) (play tr t)).
      destruct (IHt (S i) pre post K sv (play tr t) Hs HK) as [H|(r2 & tr2 & HR2 & HF2)];
        [left; exact H|right].
      rewrite chain_play, play_positive in HR2. exists r2, (tr ++ tr2). split.
      * eapply UC_next; eauto.
      * destruct r2; cbn [fits] in *; rewrite play_app; exact HF2.
    + destruct HF as (Hm & Hs' & HK' & -> & ->). right.
      exists (ROk pre' post' K' (VChoice i v)), tr. split.
      * constructor. exact HR.
      * repeat split; auto.
Qed.

(** Repetitions. *)
Definition unit_fields (t trivia : node) (i : N) : list (bool * node) := kept_round t trivia i.

Lemma sound_unit : forall k, sound_at k -> forall n trivia i pre post K sv t,
  s = pre ++ post -> valid_stack K ->
  let st := mkState (mkStack K sv) t in
  let rc := check_unit (chk k) n trivia i (blen pre) st in
  let rp := parse_unit (chk k) (prs k) n trivia i (blen pre) st in
  (rc = OutOfFuel /\ rp = OutOfFuel) \/
  exists r tr, runs_items (chain_of t) (tk_positive t) (kept_round n trivia i) pre post K
                 (match r with RFail => RFail | ROk a b c v => ROk a b c [v] end) tr /\
               fits rc rp pre sv t tr r.
Proof.
  intros k IH n trivia i pre post K sv t Hs HK. cbn zeta. unfold check_unit, parse_unit, kept_round.
  assert (F : forall pre post K sv t, s = pre ++ post -> valid_stack K ->
      let st := mkState (mkStack K sv) t in
      let rc := chk k n (blen pre) st in
      let rp := prs k n (blen pre) st in
      (rc = OutOfFuel /\ rp = OutOfFuel) \/
      exists r tr, runs_items (chain_of t) (tk_positive t) [(true, n)] pre post K
                 (match r with RFail => RFail | ROk a b c v => ROk a b c [v] end) tr /\
               fits rc rp pre sv t tr r).
  { clear pre post K sv t Hs HK. intros pre post K sv t Hs HK. cbn zeta.
    destruct (IH n pre post K sv t Hs HK) as [H|(r & tr & HR & HF)]; [left; exact H|right].
    exists r, tr. split; [|exact HF]. destruct r as [|pre' post' K' v].
    - apply UI_fail. exact HR.
    - change [v] with (keep true v []). rewrite <- (app_nil_r tr). eapply UI_cons; [exact HR|constructor]. }
  destruct (N.eq_dec i 0) as [->|Ni].
  - change (0 <? 0)%N with false. cbn [bind]. exact (F pre post K sv t Hs HK).
  - replace (0 <? i)%N with true by lia.
    destruct (IH trivia pre post K sv t Hs HK) as [(-> & _)|(r & tr & HR & HF)];
      [left; split; reflexivity|].
    destruct r as [|pre' post' K' v].
    + destruct HF as (K' & -> & _). right. exists RFail, tr. split.
      * apply UI_fail. exact HR.
      * exists K'. split; reflexivity.
    + destruct HF as ((m & ->) & Hs' & HK' & -> & _). cbn [bind].
      destruct (F (pre ++ m) post' K' sv (play tr t) Hs' HK') as [H|(r2 & tr2 & HR2 & HF2)];
        [left; exact H|right].
      rewrite chain_play, play_positive in HR2. exists r2, (tr ++ tr2).
      destruct r2 as [|pre2 post2 K2 w].
      * split; [eapply UI_later; eauto|]. cbn [fits] in *. rewrite play_app. exact HF2.
      * split.
        -- change [w] with (keep false v [w]). eapply UI_cons; eauto.
        -- destruct HF2 as ((m2 & ->) & HF2). cbn [fits] in *. rewrite play_app.
           split; [|exact HF2]. exists (m ++ m2). rewrite app_assoc. reflexivity.
Qed.

Lemma sound_rep : forall k, sound_at k -> forall n trivia min max j i vec pre post K sv t,
  s = pre ++ post -> valid_stack K ->
  let st := mkState (mkStack K sv) t in
  let rc := check_rep j (chk k) n trivia min max i (blen pre) st in
  let rp := parse_rep j (chk k) (prs k) n trivia min max i vec (blen pre) st in
  (rc = OutOfFuel /\ rp = OutOfFuel) \/
  exists r tr, runs_rep (chain_of t) (tk_positive t) n trivia min max i pre post K r tr /\
               fits rc rp pre sv t tr
                 (match r with RFail => RFail
                  | ROk a b c vs => ROk a b c (VRep (rev vec ++ vs)) end).
Proof.
  intros k IH n trivia min max. induction j as [|j IHj]; intros i vec pre post K sv t Hs HK; cbn zeta.
  - cbn [check_rep parse_rep]. destruct (i <? max)%N eqn:E; [left; split; reflexivity|right].
    exists (ROk pre post K []), []. split.
    + constructor. lia.
    + cbn [fits]. rewrite play_nil, app_nil_r. repeat split; auto.
      exists []. rewrite app_nil_r. reflexivity.
  - cbn [check_rep parse_rep]. destruct (i <? max)%N eqn:E.
    + unfold restore_on_none.
      change (on_stack stack_snapshot (mkState (mkStack K sv) t)) with (mkState (mkStack K (K :: sv)) t).
      destruct (sound_unit k IH n trivia i pre post K (K :: sv) t Hs HK)
        as [(-> & ->)|(r & tr & HR & HF)]; [left; split; reflexivity|].
      destruct r as [|pre' post' K' v].
      * destruct HF as (K' & -> & ->). right.
        change (on_stack stack_restore (mkState (mkStack K' (K :: sv)) (play tr t)))
          with (mkState (mkStack K sv) (play tr t)).
        destruct (i <? min)%N eqn:E2.
        -- exists RFail, tr. split; [apply UR_fail; auto; lia|]. exists K. split; reflexivity.
        -- exists (ROk pre post K []), tr. split; [apply UR_stop; auto; lia|].
           cbn [fits]. rewrite app_nil_r. repeat split; auto.
           exists []. rewrite app_nil_r. reflexivity.
      * destruct HF as ((m & ->) & Hs' & HK' & -> & ->).
        change (on_stack stack_clear_snapshot (mkState (mkStack K' (K :: sv)) (play tr t)))
          with (mkState (mkStack K' sv) (play tr t)).
        destruct (IHj (i + 1)%N (v :: vec) (pre ++ m) post' K' sv (play tr t) Hs' HK')
          as [H|(r2 & tr2 & HR2 & HF2)]; [left; exact H|right].
        rewrite chain_play, play_positive in HR2. destruct r2 as [|pre2 post2 K2 vs].
        -- exists RFail, (tr ++ tr2). split.
           ++ eapply UR_later; eauto. lia.
           ++ cbn [fits] in *. rewrite play_app. exact HF2.
        -- exists (ROk pre2 post2 K2 ([v] ++ vs)), (tr ++ tr2). split.
           ++ eapply UR_round; eauto. lia.
           ++ destruct HF2 as ((m2 & ->) & HF2). cbn [fits] in *. rewrite play_app. split.
              ** exists (m ++ m2). rewrite app_assoc. reflexivity.
              ** cbn [rev] in HF2. rewrite <- (app_assoc (rev vec)) in HF2. exact HF2.
    + right. exists (ROk pre post K []), []. split.
      * constructor. lia.
      * cbn [fits]. rewrite play_nil, app_nil_r. repeat split; auto.
        exists []. rewrite app_nil_r. reflexivity.
Qed.

Theorem sound : forall k, sound_at k.
Proof.
  induction k as [|k IH]; intros n pre post K sv t Hs HK.
  - left. split; reflexivity.
  - destruct (is_terminal n) eqn:Hn; [apply sound_terminal; assumption|].
    destruct n; try discriminate Hn; clear Hn; cbn zeta; cbn [check try_parse].
    + (* Positive *)
      unfold during. cbn beta zeta.
      change (on_stack stack_snapshot (on_tracker (set_positive true) (mkState (mkStack K sv) t)))
        with (mkState (mkStack K (K :: sv)) (set_positive true t)).
      destruct (IH n pre post K (K :: sv) (set_positive true t) Hs HK)
        as [(-> & ->)|(r & tr & HR & HF)]; [left; split; reflexivity|right].
      destruct r as [|pre' post' K' v].
      * destruct HF as (K' & -> & ->). exists RFail, tr. split.
        -- apply U_positive_fail. exact HR.
        -- exists K. split; reflexivity.
      * destruct HF as (Hm & Hs' & HK' & -> & ->). exists (ROk pre post K (VPositive v)), tr. split.
        -- eapply U_positive_ok. exact HR.
        -- repeat split; auto. exists []. rewrite app_nil_r. reflexivity.
    + (* Negative *)
      unfold during. cbn beta zeta.
      change (on_stack stack_snapshot (on_tracker (set_positive false) (mkState (mkStack K sv) t)))
        with (mkState (mkStack K (K :: sv)) (set_positive false t)).
      destruct (IH n pre post K (K :: sv) (set_positive false t) Hs HK)
        as [(-> & _)|(r & tr & HR & HF)]; [left; split; reflexivity|right].
      destruct r as [|pre' post' K' v].
      * destruct HF as (K' & -> & _). exists (ROk pre post K VUnit), tr. split.
        -- apply U_negative_ok. exact HR.
        -- repeat split; auto. exists []. rewrite app_nil_r. reflexivity.
      * destruct HF as (Hm & Hs' & HK' & -> & _). exists RFail, tr. split.
        -- eapply U_negative_fail. exact HR.
        -- exists K. split; reflexivity.
    + (* Push *)
      destruct (IH n pre post K sv t Hs HK) as [(-> & ->)|(r & tr & HR & HF)];
        [left; split; reflexivity|right].
      destruct r as [|pre' post' K' v].
      * destruct HF as (K' & -> & ->). exists RFail, tr. split.
        -- apply U_push_fail. exact HR.
        -- exists K'. split; reflexivity.
      * destruct HF as ((m & ->) & Hs' & HK' & -> & ->). cbn [bind fst snd].
        rewrite <- app_assoc in Hs'. rewrite (span_between_split addr s pre m post' Hs').
        cbn [obind]. eexists _, tr. split.
        -- eapply U_push_ok. exact HR.
        -- repeat split; eauto.
           ++ rewrite <- app_assoc. exact Hs'.
           ++ eapply valid_cons; eauto. eapply span_to_text; eauto.
    + (* RepMinMax *)
      destruct (sound_rep k IH n1 n2 min max k 0%N [] pre post K sv t Hs HK)
        as [H|(r & tr & HR & HF)]; [left; exact H|right].
      destruct r as [|pre' post' K' vs].
      * exists RFail, tr. split; [constructor; exact HR|exact HF].
      * exists (ROk pre' post' K' (VRep vs)), tr. split; [constructor; exact HR|exact HF].
    + (* Opt *)
      change (on_stack stack_snapshot (mkState (mkStack K sv) t)) with (mkState (mkStack K (K :: sv)) t).
      destruct (IH n pre post K (K :: sv) t Hs HK) as [(-> & ->)|(r & tr & HR & HF)];
        [left; split; reflexivity|right].
      destruct r as [|pre' post' K' v].
      * destruct HF as (K' & -> & ->). exists (ROk pre post K (VOpt None)), tr. split.
        -- apply U_opt_none. exact HR.
        -- repeat split; auto. exists []. rewrite app_nil_r. reflexivity.
      * destruct HF as (Hm & Hs' & HK' & -> & ->). exists (ROk pre' post' K' (VOpt (Some v))), tr.
        split; [apply U_opt_some; exact HR|]. repeat split; auto.
    + (* Seq *)
      destruct (sound_seq k IH fields true pre post K sv t Hs HK)
        as [(-> & ->)|(r & tr & HR & HF)]; [left; split; reflexivity|right].
      destruct r as [|pre' post' K' vs].
      * destruct HF as (K' & -> & ->). exists RFail, tr. split; [constructor; exact HR|].
        exists K'. split; reflexivity.
      * destruct HF as (Hm & Hs' & HK' & -> & ->). exists (ROk pre' post' K' (VSeq vs)), tr.
        split; [constructor; exact HR|]. repeat split; auto.
    + (* Choice *)
      destruct (sound_choice k IH variants 0 pre post K sv t Hs HK) as [H|(r & tr & HR & HF)];
        [left; exact H|right].
      exists r, tr. split; [constructor; exact HR|exact HF].
    + (* Rule *)
      unfold record_option_during_with, on_tracker. cbn [st_stack st_tracker].
      destruct (IH (rd_body (env r) args) pre post K sv (enter_rule r (blen pre) t) Hs HK)
        as [(-> & ->)|(x & tr & HR & HF)]; [left; split; reflexivity|right].
      assert (CH : chain_of (enter_rule r (blen pre) t) = (r, blen pre) :: chain_of t).
      { unfold chain_of, enter_rule. simpl. destruct (tk_stack t) as [|[[r' p'] c] rest]; reflexivity. }
      rewrite CH in HR. cbn [enter_rule tk_positive] in HR.
      destruct x as [|pre' post' K' v].
      * destruct HF as (K' & -> & ->). cbn [obind bind st_stack st_tracker].
        rewrite enter_leave. cbn [obind]. eexists RFail, _. split.
        -- apply U_rule_fail. exact HR.
        -- exists K'. split; reflexivity.
      * destruct HF as ((m & ->) & Hs' & HK' & -> & ->). cbn [obind bind fst snd].
        rewrite <- app_assoc in Hs'. rewrite (span_between_split addr s pre m post' Hs').
        cbn [obind st_stack st_tracker]. rewrite enter_leave. cbn [obind].
        eexists _, _. split.
        -- eapply U_rule_ok. exact HR.
        -- repeat split; eauto. rewrite <- app_assoc. exact Hs'.
Qed.
End Run.
