(** C77: trackers used by any program (core/src/typed/tracker.rs). *)
From Coq Require Import String List NArith ZArith Arith Bool Lia.
From Verif Require Import Model_Text Model_Position Model_Stack Model_Tracker Model_Client Spec_Text Spec_Run Spec_Tracker Spec_Client
  Proof_Text Proof_Tracker Proof_Entry Proof_Client.
Import ListNotations.
Open Scope list_scope.

(** Whatever a program reports to a new tracker at positions of one text, in any order and nesting, the
    tracker does not panic, the nesting and the polarity are put back, and the report is exactly that of
    what happened: see [reports]. *)
Theorem C77_report : forall addr s start l, at_text addr s start -> Forall (all_at (at_text addr s)) l ->
  exists t, acts l (p_new start) = Ret t /\ pt_positive t = true /\ pt_stack t = [] /\ at_text addr s (fst (p_finish t)) /\
    reports (p_pos start) (map to_event (flat_map (happens [] true) l)) (p_pos (fst (p_finish t)), snd (p_finish t)).
Proof.
  intros addr s start l St F.
  assert (H : follows addr s (flat_map (happens [] true) l) (p_new start) (acts l (p_new start))).
  { apply acts_sim; [|split; [exact St|constructor]|reflexivity|reflexivity].
    apply Forall_forall. intros a J t G Ec Ep. apply act_sim; try assumption. rewrite Forall_forall in F. apply F, J. }
  destruct H as (t & E & Q & (G & _)). exists t. split; [exact E|].
  destruct (acts_fares s [] true l (proj2 (Forall_forall _ _) (fun a _ => act_fares s a [] true)) (p_new start) (proj2 St) eq_refl eq_refl)
    as [(_ & t1 & E1 & _ & B & C)|(_ & E1)]; [|congruence]. assert (t1 = t) as -> by congruence.
  split; [exact B|]. split; [exact C|]. split; [exact G|].
  assert (Qf : (p_pos (fst (p_finish t)), snd (p_finish t)) = finish (to_tracker t)) by reflexivity. rewrite Qf, Q.
  change (to_tracker (p_new start)) with (tracker_new (p_pos start)). rewrite play_new. apply represents_reports, represents_all.
Qed.
Print Assumptions C77_report.
(** A rule [3] from offset [0] in which, after a misuse of the stack, rule [1] fails at [2] and, in a
    negative context, rule [2] succeeds at [2]; before that, something at [1], which is not reported. *)
Definition p_at (i : nat) : position := mkPosition 5 (lit "abc") i.
Definition sample_actions : list action :=
  [Within 3%N (p_at 0) false
     [Bare (p_at 1); Repeat (p_at 2); Within 1%N (p_at 2) false []; Polarity false [Within 2%N (p_at 2) true [Bound (p_at 2) (-1) None]; Bare (p_at 0)]]].
Example C77_report_ex : at_text 5 (lit "abc") (p_at 0) /\ Forall (all_at (at_text 5 (lit "abc"))) sample_actions /\
  (let! t := acts sample_actions (p_new (p_at 0)) in Ret (p_finish t)) =
  Ret (p_at 2, [(Some 3%N, ([1%N], [2%N], [RepeatTooManyTimes; SliceOutOfBound (-1) None]))]).
Proof. split; [split; reflexivity|]. split; [repeat constructor|vm_compute; reflexivity]. Qed.

(** With positions of several texts: the tracker panics just if something is reported at a position of
    another text than the one that it was made with; where the texts are stored does not matter for this. *)
Theorem C77_panics : forall start l,
  (acts l (p_new start) = Panic <-> exists e, In e (flat_map (happens [] true) l) /\ p_input (pevent_at e) <> p_input start) /\
  (acts l (p_new start) <> OutOfFuel).
Proof.
  intros start l.
  destruct (acts_fares (p_input start) [] true l (proj2 (Forall_forall _ _) (fun a _ => act_fares (p_input start) a [] true)) (p_new start) eq_refl eq_refl eq_refl)
    as [(F & t & E & _)|(F & E)]; rewrite E; split; try discriminate; split; try discriminate; try reflexivity.
  - intros (e & J & N). rewrite Forall_forall in F. destruct (N (F e J)).
  - intros _. apply Exists_exists in F. exact F.
Qed.
Print Assumptions C77_panics.
(** A rule of another text in which a rule of this text was tried is not reported, so nothing panics. *)
Example C77_panics_ex :
  acts [Within 1%N (mkPosition 5 (lit "x") 0) false []] (p_new (p_at 0)) = Panic /\
  exists t, acts [Within 1%N (mkPosition 5 (lit "x") 0) false [Within 2%N (p_at 1) false []]] (p_new (p_at 0)) = Ret t.
Proof. split; [reflexivity|eexists; vm_compute; reflexivity]. Qed.

(** The nesting and the polarity are put back in the middle of other calls too. *)
Theorem C77_balanced : forall l t t', acts l t = Ret t' ->
  map fst (pt_stack t') = map fst (pt_stack t) /\ tl (pt_stack t') = tl (pt_stack t) /\ pt_positive t' = pt_positive t.
Proof.
  intros l t t' H.
  destruct (acts_fares (p_input (pt_position t)) (map fst (pt_stack t)) (pt_positive t) l
    (proj2 (Forall_forall _ _) (fun a _ => act_fares (p_input (pt_position t)) a _ _)) t eq_refl eq_refl eq_refl)
    as [(_ & t1 & E & _ & B & C)|(_ & E)]; [|congruence]. assert (t1 = t') as -> by congruence. rewrite C, marks_fst.
  split; [reflexivity|]. split; [|exact B]. destruct (pt_stack t) as [|[[r p] c] rest]; reflexivity.
Qed.
Print Assumptions C77_balanced.
Example C77_balanced_ex : exists t, acts sample_actions (mkPTracker (p_at 2) false [] [(7%N, p_at 1, false)]) = Ret t.
Proof. eexists. vm_compute. reflexivity. Qed.

(** On positions of one text the methods do what the model of the tracker with offsets says. *)
Theorem C77_offsets : forall addr s t pos, good_tracker addr s t -> at_text addr s pos ->
  let is (o : outcome ptracker) (u : tracker) := exists t', o = Ret t' /\ to_tracker t' = u /\ good_tracker addr s t' in
  is (p_repeat_too_many_times pos t) (repeat_too_many_times (p_pos pos) (to_tracker t)) /\
  (forall a b, is (p_out_of_bound pos a b t) (out_of_bound (p_pos pos) a b (to_tracker t))) /\
  is (p_empty_stack pos t) (empty_stack (p_pos pos) (to_tracker t)) /\
  (forall r ok, is (p_record r pos ok t) (record r (p_pos pos) ok (to_tracker t))).
Proof.
  intros addr s t pos G P is. split; [apply special_sim; assumption|]. split; [intros a b; apply special_sim; assumption|].
  split; [apply special_sim; assumption|]. intros r ok. apply record_sim; assumption.
Qed.
Print Assumptions C77_offsets.
Example C77_offsets_ex : good_tracker 5 (lit "abc") (mkPTracker (p_at 1) false [(None, ([1%N], [], []))] [(7%N, p_at 0, false)]) /\ at_text 5 (lit "abc") (p_at 2).
Proof. split; [split; [split; reflexivity|repeat constructor]|split; reflexivity]. Qed.

(** A misuse of the stack or of a repetition: below the furthest position it is forgotten; at it, it is
    added to the group of the nearest enclosing rule that started elsewhere; beyond it, it is all that is left. *)
Theorem C77_special : forall addr s t pos, good_tracker addr s t -> at_text addr s pos ->
  forall call e, In (call, e) [(Repeat pos, RepeatTooManyTimes); (Bare pos, EmptyStack)] \/
    (exists a b, call = Bound pos a b /\ e = SliceOutOfBound a b) ->
  let u := upper (map fst (tk_stack (to_tracker t))) (p_pos pos) in
  exists t', act call t = Ret t' /\ pt_stack t' = pt_stack t /\ pt_positive t' = pt_positive t /\
    (p_pos pos < p_pos (pt_position t) -> t' = t) /\
    (p_pos pos = p_pos (pt_position t) -> pt_position t' = pt_position t /\
       pt_attempts t' = map_update u (fun v => let '(a, b, c) := v in (a, b, c ++ [e])) (pt_attempts t)) /\
    (p_pos (pt_position t) < p_pos pos -> pt_position t' = pos /\ pt_attempts t' = [(u, ([], [], [e]))]).
Proof.
  intros addr s t pos (G & Gs) P call e H u.
  assert (E : act call t = p_report_special e pos t).
  { destruct H as [[H|[H|[]]]|(a & b & -> & ->)]; [injection H as <- <-; reflexivity|injection H as <- <-; reflexivity|reflexivity]. }
  rewrite E. unfold p_report_special, p_prepare. rewrite (cmp_at addr s _ _ P G). cbn [obind].
  assert (U : p_find_upper (pt_stack t) pos = u) by (rewrite (upper_at addr s _ _ Gs P), find_upper_chain; reflexivity).
  destruct (Nat.compare_spec (p_pos pos) (p_pos (pt_position t))) as [C|C|C]; cbn [obind]; eexists; (split; [reflexivity|]);
    unfold p_update_entry; cbn [pt_stack pt_positive pt_position pt_attempts]; rewrite ?U; (split; [reflexivity|]); (split; [reflexivity|]);
    (split; [|split]); intro L; try lia; auto.
Qed.
Print Assumptions C77_special.
Example C77_special_ex :
  (let! t := act (Repeat (p_at 2)) (mkPTracker (p_at 1) false [(None, ([1%N], [], []))] [(7%N, p_at 2, false); (8%N, p_at 0, true)]) in Ret (p_finish t)) =
  Ret (p_at 2, [(Some 8%N, ([], [], [RepeatTooManyTimes]))]).
Proof. reflexivity. Qed.

(** Positions in equal texts stored at different places are compared by offset but are not the same: the
    group of an attempt depends on where the texts are stored. *)
Theorem C77_addresses_refuted :
  ~ (forall start l t start' l' t', p_input start = p_input start' -> p_pos start = p_pos start' ->
       map to_event (flat_map (happens [] true) l) = map to_event (flat_map (happens [] true) l') ->
       acts l (p_new start) = Ret t -> acts l' (p_new start') = Ret t' -> snd (p_finish t) = snd (p_finish t')).
Proof.
  intro H.
  specialize (H (p_at 0) [Within 3%N (p_at 0) false [Within 1%N (p_at 0) false []]] _ (p_at 0)
    [Within 3%N (p_at 0) false [Within 1%N (mkPosition 6 (lit "abc") 0) false []]] _ eq_refl eq_refl eq_refl eq_refl eq_refl).
  vm_compute in H. discriminate H.
Qed.
Print Assumptions C77_addresses_refuted.
