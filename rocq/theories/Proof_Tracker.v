From Coq Require Import List NArith ZArith Arith Bool Lia ZifyBool ZifyNat ZifyN.
From Coq Require Import Sorting.Sorted.
From Verif Require Import Model_Text Model_Tracker Spec_Run Spec_Tracker.
Import ListNotations.
Open Scope list_scope.

(** ** Keys *)
Lemma key_compare_eq : forall a b, key_compare a b = Eq <-> a = b.
Proof.
  intros [a|] [b|]; simpl; split; intros H; try discriminate; try reflexivity.
  - apply N.compare_eq in H. congruence.
  - injection H as ->. apply N.compare_refl.
Qed.
Lemma key_compare_refl : forall a, key_compare a a = Eq.
Proof. intros a. apply key_compare_eq. reflexivity. Qed.
Lemma key_compare_antisym : forall a b, key_compare b a = CompOpp (key_compare a b).
Proof. intros [a|] [b|]; simpl; auto. apply N.compare_antisym. Qed.
Lemma key_lt_trans : forall a b c, key_lt a b -> key_lt b c -> key_lt a c.
Proof.
  unfold key_lt. intros [a|] [b|] [c|]; simpl; auto; try discriminate.
  rewrite !N.compare_lt_iff. lia.
Qed.
Lemma same_key_iff : forall a b, same_key a b = true <-> a = b.
Proof.
  intros a b. unfold same_key. rewrite <- key_compare_eq.
  destruct (key_compare a b); split; congruence.
Qed.

(** ** The map *)
Definition sorted_keys (m : list (option rule * tracked)) : Prop := StronglySorted key_lt (map fst m).
Definition look0 (m : list (option rule * tracked)) (u : option rule) : tracked :=
  match lookup m u with Some v => v | None => ([], [], []) end.

Lemma map_update_keys : forall k f m x,
  In x (map fst (map_update k f m)) <-> x = k \/ In x (map fst m).
Proof.
  intros k f m x. induction m as [|[k' v] m IH]; simpl.
  - intuition congruence.
  - destruct (key_compare k k') eqn:E; simpl.
    + apply key_compare_eq in E. subst. intuition congruence.
    + intuition congruence.
    + rewrite IH. intuition congruence.
Qed.
Lemma map_update_sorted : forall k f m, sorted_keys m -> sorted_keys (map_update k f m).
Proof.
  unfold sorted_keys. intros k f m. induction m as [|[k' v] m IH]; simpl; intros H.
  - repeat constructor.
  - inversion H as [|? ? H1 H2]; subst.
    destruct (key_compare k k') eqn:E; simpl.
    + exact H.
    + constructor; [exact H|]. constructor; [exact E|].
      eapply Forall_impl; [|exact H2]. intros a Ha. eapply key_lt_trans; eauto.
    + constructor; [auto|]. apply Forall_forall. intros x Hx.
      apply map_update_keys in Hx. destruct Hx as [->|Hx].
      * unfold key_lt. rewrite key_compare_antisym, E. reflexivity.
      * rewrite Forall_forall in H2. auto.
Qed.
Lemma lookup_not_in : forall m u, ~ In u (map fst m) -> lookup m u = None.
Proof.
  intros m u. induction m as [|[k v] m IH]; simpl; intros H; auto.
  destruct (key_compare u k) eqn:E.
  - apply key_compare_eq in E. subst. exfalso. auto.
  - auto.
  - auto.
Qed.
Lemma lookup_update : forall k f m u, sorted_keys m ->
  lookup (map_update k f m) u
  = if same_key u k then Some (f (look0 m k)) else lookup m u.
Proof.
  unfold look0, sorted_keys, same_key. intros k f m u.
  induction m as [|[k' v] m IH]; simpl; intros H.
  - destruct (key_compare u k); reflexivity.
  - inversion H as [|? ? H1 H2]; subst. specialize (IH H1).
    destruct (key_compare k k') eqn:E; simpl.
    + apply key_compare_eq in E. subst k'. destruct (key_compare u k); reflexivity.
    + assert (N : ~ In k (map fst m)).
      { intros Hin. rewrite Forall_forall in H2. apply H2 in Hin. unfold key_lt in Hin.
        rewrite key_compare_antisym, E in Hin. discriminate. }
      rewrite (lookup_not_in m k N).
      destruct (key_compare u k) eqn:E2; reflexivity.
    + rewrite IH. destruct (key_compare u k) eqn:E2; simpl; try reflexivity.
      apply key_compare_eq in E2. subst u. rewrite E. reflexivity.
Qed.

(** ** Summaries *)
Definition summary : Type := nat * list (option rule * tracked).
Definition prep (p : nat) (sm : summary) : bool * summary :=
  match Nat.compare p (fst sm) with
  | Lt => (false, sm)
  | Eq => (true, sm)
  | Gt => (true, (p, []))
  end.
Definition push_attempt (pol : bool) (r : rule) (v : tracked) : tracked :=
  let '(p, n, s) := v in if pol then (push_rule r p, n, s) else (p, push_rule r n, s).
Definition play_event (sm : summary) (e : event) : summary :=
  match e with
  | Attempt ch r p pol ok =>
      let (b, sm) := prep p sm in
      if b && negb (Bool.eqb ok pol)
      then (fst sm, map_update (upper ch p) (push_attempt pol r) (snd sm)) else sm
  | Special ch p x =>
      let (b, sm) := prep p sm in
      if b then (fst sm, map_update (upper ch p) (push_special x) (snd sm)) else sm
  end.
Definition play_all (tr : list event) (sm : summary) : summary := fold_left play_event tr sm.

(** The rule stack after attempts: the innermost entry is marked if a rule was tried. *)
Definition mark (b : bool) (stk : list (rule * nat * bool)) : list (rule * nat * bool) :=
  match stk with
  | (r, p, c) :: rest => (r, p, b || c) :: rest
  | [] => []
  end.
Definition play (tr : list event) (t : tracker) : tracker :=
  let sm := play_all tr (tk_position t, tk_attempts t) in
  mkTracker (fst sm) (tk_positive t) (snd sm) (mark (tried_rule tr) (tk_stack t)).

Lemma tried_app : forall a b, tried_rule (a ++ b) = tried_rule a || tried_rule b.
Proof. intros. apply existsb_app. Qed.
Lemma mark_mark : forall a b stk, mark b (mark a stk) = mark (a || b) stk.
Proof. intros a b [|[[r p] c] rest]; simpl; auto. destruct a, b, c; reflexivity. Qed.
Lemma mark_false : forall stk, mark false stk = stk.
Proof. intros [|[[r p] c] rest]; reflexivity. Qed.
Lemma play_nil : forall t, play [] t = t.
Proof. intros [p b a stk]. unfold play. simpl. rewrite mark_false. reflexivity. Qed.
Lemma play_app : forall a b t, play (a ++ b) t = play b (play a t).
Proof.
  intros a b t. unfold play, play_all. simpl. rewrite fold_left_app, tried_app, mark_mark.
  destruct (fold_left play_event a (tk_position t, tk_attempts t)). reflexivity.
Qed.
Lemma map_fst_mark : forall b stk, map fst (mark b stk) = map fst stk.
Proof. intros b [|[[r p] c] rest]; reflexivity. Qed.

Lemma find_upper_chain : forall stk p, find_upper stk p = upper (map fst stk) p.
Proof.
  unfold upper. intros stk p. induction stk as [|[[r q] c] stk IH]; simpl; auto.
  destruct (negb (q =? p)); auto.
Qed.

Lemma report_special_play : forall e p t,
  report_special e p t = play [Special (map fst (tk_stack t)) p e] t.
Proof.
  intros e p [q b a stk]. unfold report_special, prepare, play, play_all, tracker_clear,
    update_entry. simpl. unfold prep. simpl.
  rewrite mark_false.
  destruct (Nat.compare p q); simpl; rewrite ?find_upper_chain; reflexivity.
Qed.

Lemma record_play : forall r p ok t,
  let t' := record r p ok t in
  let sm := play_event (tk_position t, tk_attempts t)
              (Attempt (map fst (tk_stack t)) r p (tk_positive t) ok) in
  t' = mkTracker (fst sm) (tk_positive t) (snd sm) (tk_stack t).
Proof.
  intros r p ok [q b a stk]. unfold record, prepare, tracker_clear, update_entry. simpl.
  unfold prep. simpl.
  destruct (Nat.compare p q); simpl; destruct (negb (Bool.eqb ok b)); simpl;
    rewrite ?find_upper_chain; reflexivity.
Qed.

(** Entering a rule, playing the attempts made inside and leaving it. *)
Lemma enter_leave : forall r p ok tr t,
  leave_rule r p ok (play tr (enter_rule r p t))
  = Ret (play (tr ++ (if tried_rule tr then []
                      else [Attempt (map fst (tk_stack t)) r p (tk_positive t) ok])) t).
Proof.
  intros r p ok tr t. unfold leave_rule.
  assert (S : tk_stack (play tr (enter_rule r p t))
              = (r, p, tried_rule tr || false) :: mark true (tk_stack t)).
  { unfold play, enter_rule. simpl. destruct (tk_stack t) as [|[[r' p'] c] rest]; reflexivity. }
  rewrite S. rewrite orb_false_r. f_equal.
  destruct (tried_rule tr) eqn:E.
  - rewrite app_nil_r. unfold play. rewrite E. simpl. reflexivity.
  - rewrite play_app.
    match goal with |- record _ _ _ ?x = _ => set (t1 := x) end.
    assert (T1 : t1 = mkTracker (tk_position (play tr t)) (tk_positive t)
                        (tk_attempts (play tr t)) (mark true (tk_stack t))).
    { subst t1. unfold play, enter_rule. simpl. reflexivity. }
    rewrite T1. pose proof (record_play r p ok
      (mkTracker (tk_position (play tr t)) (tk_positive t) (tk_attempts (play tr t))
         (mark true (tk_stack t)))) as R.
    cbn [tk_position tk_positive tk_attempts tk_stack] in R.
    rewrite R, map_fst_mark. clear R T1 t1 S.
    unfold play at 5. unfold play_all. cbn [fold_left tried_rule existsb tk_positive tk_stack orb].
    f_equal. unfold play. cbn [tk_stack]. rewrite E, mark_false. reflexivity.
Qed.

Lemma play_set_positive : forall b tr t,
  set_positive (tk_positive t) (play tr (set_positive b t)) = play tr t.
Proof. intros b tr t. reflexivity. Qed.

Lemma play_stack_fst : forall tr t, map fst (tk_stack (play tr t)) = map fst (tk_stack t).
Proof. intros tr t. unfold play. simpl. apply map_fst_mark. Qed.
Lemma play_positive : forall tr t, tk_positive (play tr t) = tk_positive t.
Proof. reflexivity. Qed.

(** ** The declarative reading of a summary *)
Lemma push_rule_squeeze : forall l r, push_rule r (squeeze l) = squeeze (l ++ [r]).
Proof.
  intros l r. unfold push_rule, same_with_last.
  assert (G : forall m, match rev (squeeze m) with last :: _ => last = r | [] => False end
              -> squeeze (m ++ [r]) = squeeze m).
  { induction m as [|x m IH]; simpl; [contradiction|].
    destruct (squeeze m) as [|y q] eqn:E.
    - destruct m as [|z m']; simpl in E.
      + simpl. intros ->. destruct (N.eq_dec r r); congruence.
      + destruct (squeeze m'); [discriminate|]. destruct (N.eq_dec z r0); discriminate.
    - intros H. rewrite IH.
      + reflexivity.
      + destruct (N.eq_dec x y).
        * exact H.
        * change (rev (x :: y :: q)) with (rev (y :: q) ++ [x]) in H.
          destruct (rev (y :: q)) eqn:E2; [|exact H].
          apply (f_equal (@rev rule)) in E2. rewrite rev_involutive in E2. discriminate. }
  assert (G2 : forall m, match rev (squeeze m) with last :: _ => last <> r | [] => True end
              -> squeeze (m ++ [r]) = squeeze m ++ [r]).
  { induction m as [|x m IH]; simpl; [reflexivity|].
    destruct (squeeze m) as [|y q] eqn:E.
    - destruct m as [|z m']; simpl in E.
      + simpl. intros H. destruct (N.eq_dec x r); [contradiction|reflexivity].
      + destruct (squeeze m'); [discriminate|]. destruct (N.eq_dec z r0); discriminate.
    - intros H. rewrite IH.
      + simpl. destruct (N.eq_dec x y); reflexivity.
      + destruct (N.eq_dec x y).
        * exact H.
        * change (rev (x :: y :: q)) with (rev (y :: q) ++ [x]) in H.
          destruct (rev (y :: q)) eqn:E2; [exact I|exact H]. }
  specialize (G l). specialize (G2 l).
  destruct (rev (squeeze l)) as [|last q].
  - simpl. rewrite G2; auto.
  - destruct (last =? r)%N eqn:E; simpl.
    + apply N.eqb_eq in E. rewrite G; auto.
    + apply N.eqb_neq in E. rewrite G2; auto.
Qed.
Lemma squeeze_in : forall l r, In r (squeeze l) <-> In r l.
Proof.
  induction l as [|x l IH]; intros r; simpl; [tauto|].
  specialize (IH r). destruct (squeeze l) as [|y q].
  - simpl in *. tauto.
  - destruct (N.eq_dec x y).
    + subst. simpl in *. tauto.
    + simpl in *. tauto.
Qed.
Lemma squeeze_nil : forall l, squeeze l = [] -> l = [].
Proof.
  destruct l as [|x l]; simpl; auto. destruct (squeeze l); [discriminate|].
  destruct (N.eq_dec x r); discriminate.
Qed.

(** The content of group [u] at offset [p] that the attempts prescribe. *)
Definition group (p : nat) (u : option rule) (tr : list event) : tracked :=
  (squeeze (expected_list p u tr), squeeze (unexpected_list p u tr), misuse_list p u tr).
Definition nonempty (v : tracked) : bool :=
  let '(a, b, c) := v in
  match a, b, c with [], [], [] => false | _, _, _ => true end.

Definition represents (start : nat) (tr : list event) (sm : summary) : Prop :=
  fst sm = furthest start tr /\ sorted_keys (snd sm) /\
  forall u, lookup (snd sm) u
            = let g := group (furthest start tr) u tr in if nonempty g then Some g else None.

Lemma furthest_snoc : forall start tr e,
  furthest start (tr ++ [e]) = Nat.max (furthest start tr) (event_at e).
Proof.
  intros start tr e. unfold furthest. rewrite map_app, fold_right_app. simpl.
  induction (map event_at tr) as [|x l IH]; simpl; lia.
Qed.
Lemma furthest_ge : forall start tr e, In e tr -> event_at e <= furthest start tr.
Proof.
  intros start tr e. unfold furthest. induction tr as [|x tr IH]; simpl; [contradiction|].
  intros [->|H]; [lia|]. specialize (IH H). lia.
Qed.
Lemma furthest_start : forall start tr, start <= furthest start tr.
Proof. intros. unfold furthest. induction tr; simpl; lia. Qed.

Definition group_event (p : nat) (u : option rule) (e : event) : list rule * list rule * list special_error :=
  (expected_list p u [e], unexpected_list p u [e], misuse_list p u [e]).

Lemma lists_app : forall p u a b,
  expected_list p u (a ++ b) = expected_list p u a ++ expected_list p u b /\
  unexpected_list p u (a ++ b) = unexpected_list p u a ++ unexpected_list p u b /\
  misuse_list p u (a ++ b) = misuse_list p u a ++ misuse_list p u b.
Proof. intros. unfold expected_list, unexpected_list, misuse_list. rewrite !flat_map_app. auto. Qed.

Lemma lists_other : forall p u tr, (forall e, In e tr -> event_at e <> p) ->
  expected_list p u tr = [] /\ unexpected_list p u tr = [] /\ misuse_list p u tr = [].
Proof.
  intros p u tr. induction tr as [|e tr IH]; intros H; [auto|].
  destruct IH as (A & B & C); [intros; apply H; right; auto|].
  assert (E : (event_at e =? p) = false) by (apply Nat.eqb_neq, H; left; auto).
  unfold expected_list, unexpected_list, misuse_list in *. simpl. rewrite A, B, C.
  destruct e as [ch r q [] []|ch q x]; simpl in *; rewrite ?E; auto.
Qed.

Lemma nonempty_squeeze : forall a b c,
  nonempty (squeeze a, squeeze b, c) = nonempty (a, b, c).
Proof.
  intros a b c. unfold nonempty.
  destruct (squeeze a) eqn:E.
  - apply squeeze_nil in E. subst a. destruct (squeeze b) eqn:E2.
    + apply squeeze_nil in E2. subst b. reflexivity.
    + destruct b; [discriminate|reflexivity].
  - destruct a; [discriminate|reflexivity].
Qed.

Lemma group_eta : forall p u tr, group p u tr
  = (squeeze (expected_list p u tr), squeeze (unexpected_list p u tr), misuse_list p u tr).
Proof. reflexivity. Qed.

Lemma look0_represents : forall start tr sm u, represents start tr sm ->
  look0 (snd sm) u = group (furthest start tr) u tr.
Proof.
  intros start tr sm u (_ & _ & H). unfold look0. rewrite H. cbn zeta.
  destruct (group (furthest start tr) u tr) as [[a b] c] eqn:E. unfold nonempty.
  destruct a, b, c; reflexivity.
Qed.

(** One event after attempts that are represented. *)
Lemma represents_snoc : forall start tr sm e, represents start tr sm ->
  represents start (tr ++ [e]) (play_event sm e).
Proof.
  intros start tr sm e Hrep.
  pose proof Hrep as (HA & HB & HC).
  set (F := furthest start tr) in *.
  assert (HF : furthest start (tr ++ [e]) = Nat.max F (event_at e)) by apply furthest_snoc.
  (* an offset that is not the furthest any more contributes nothing *)
  destruct (lt_eq_lt_dec (event_at e) F) as [[Hlt|Heq]|Hgt].
  - (* before the furthest offset *)
    assert (S : play_event sm e = sm).
    { destruct e as [ch r p pol ok|ch p x]; simpl in *; unfold prep; rewrite HA;
        destruct (Nat.compare_spec p F); try lia; reflexivity. }
    rewrite S. repeat split; auto.
    + rewrite HF, HA. fold F. lia.
    + intros u. rewrite HF. replace (Nat.max F (event_at e)) with F by lia.
      rewrite HC. fold F. cbn zeta.
      assert (G : group F u (tr ++ [e]) = group F u tr).
      { unfold group. destruct (lists_app F u tr [e]) as (-> & -> & ->).
        destruct (lists_other F u [e]) as (-> & -> & ->);
          [intros x [<-|[]]; lia|]. rewrite !app_nil_r. reflexivity. }
      rewrite G. reflexivity.
  - (* at the furthest offset *)
    assert (P : prep (event_at e) sm = (true, sm)).
    { unfold prep. rewrite HA, Heq, Nat.compare_refl. reflexivity. }
    assert (HF' : furthest start (tr ++ [e]) = F) by lia.
    assert (L : forall u, group F u (tr ++ [e])
       = (squeeze (expected_list F u tr ++ expected_list F u [e]),
          squeeze (unexpected_list F u tr ++ unexpected_list F u [e]),
          misuse_list F u tr ++ misuse_list F u [e])).
    { intros u. unfold group. destruct (lists_app F u tr [e]) as (-> & -> & ->). reflexivity. }
    assert (UPD : forall ch f, event_chain e = ch ->
       (forall u, u <> upper ch F -> group F u (tr ++ [e]) = group F u tr) ->
       group F (upper ch F) (tr ++ [e]) = f (group F (upper ch F) tr) ->
       nonempty (f (group F (upper ch F) tr)) = true ->
       represents start (tr ++ [e]) (fst sm, map_update (upper ch F) f (snd sm))).
    { intros ch f _ H1 H2 H3. repeat split; cbn [fst snd].
      - rewrite HF'. exact HA.
      - apply map_update_sorted. exact HB.
      - intros u. rewrite lookup_update by exact HB. rewrite HF'.
        destruct (same_key u (upper ch F)) eqn:E.
        + apply same_key_iff in E. subst u. rewrite (look0_represents start tr sm _ Hrep).
          fold F. cbn zeta. rewrite H2, H3. reflexivity.
        + rewrite HC. fold F. rewrite H1; [reflexivity|].
          intros ->. assert (same_key (upper ch F) (upper ch F) = true) by (apply same_key_iff; auto).
          congruence. }
    assert (Same : (forall u, group F u (tr ++ [e]) = group F u tr) ->
       represents start (tr ++ [e]) sm).
    { intros H. repeat split; auto.
      - rewrite HF'. exact HA.
      - intros u. rewrite HF', HC. fold F. rewrite H. reflexivity. }
    assert (KT : forall u, same_key u u = true) by (intros; apply same_key_iff; auto).
    assert (KF : forall u v, u <> v -> same_key v u = false).
    { intros u v N. destruct (same_key v u) eqn:E; auto. apply same_key_iff in E. congruence. }
    destruct e as [ch r p pol ok|ch p x]; simpl in Heq, P; subst p.
    + cbn [play_event]. rewrite P. cbv iota beta.
      destruct pol, ok; simpl (Bool.eqb _ _); cbn [negb andb].
      * apply Same. intros u. rewrite L. cbn [expected_list unexpected_list misuse_list flat_map].
        rewrite !app_nil_r. reflexivity.
      * apply UPD; auto.
        -- intros u N. rewrite L. cbn [expected_list unexpected_list misuse_list flat_map].
           rewrite KF by auto. rewrite andb_false_r, !app_nil_r. reflexivity.
        -- rewrite L. cbn [expected_list unexpected_list misuse_list flat_map].
           rewrite Nat.eqb_refl, KT. cbn [andb app]. rewrite !app_nil_r.
           unfold push_attempt, group. rewrite push_rule_squeeze. reflexivity.
        -- unfold push_attempt, group. rewrite push_rule_squeeze, nonempty_squeeze.
           destruct (expected_list F (upper ch F) tr); reflexivity.
      * apply UPD; auto.
        -- intros u N. rewrite L. cbn [expected_list unexpected_list misuse_list flat_map].
           rewrite KF by auto. rewrite andb_false_r, !app_nil_r. reflexivity.
        -- rewrite L. cbn [expected_list unexpected_list misuse_list flat_map].
           rewrite Nat.eqb_refl, KT. cbn [andb app]. rewrite !app_nil_r.
           unfold push_attempt, group. rewrite push_rule_squeeze. reflexivity.
        -- unfold push_attempt, group. rewrite push_rule_squeeze, nonempty_squeeze.
           destruct (expected_list F (upper ch F) tr), (unexpected_list F (upper ch F) tr);
             reflexivity.
      * apply Same. intros u. rewrite L. cbn [expected_list unexpected_list misuse_list flat_map].
        rewrite !app_nil_r. reflexivity.
    + cbn [play_event]. rewrite P. cbv iota beta. apply UPD; auto.
      * intros u N. rewrite L. cbn [expected_list unexpected_list misuse_list flat_map].
        rewrite KF by auto. rewrite andb_false_r, !app_nil_r. reflexivity.
      * rewrite L. cbn [expected_list unexpected_list misuse_list flat_map].
        rewrite Nat.eqb_refl, KT. cbn [andb app]. rewrite !app_nil_r. reflexivity.
      * unfold push_special, group. rewrite nonempty_squeeze.
        destruct (expected_list F (upper ch F) tr), (unexpected_list F (upper ch F) tr),
          (misuse_list F (upper ch F) tr); reflexivity.
  - (* beyond the furthest offset *)
    assert (P : prep (event_at e) sm = (true, (event_at e, []))).
    { unfold prep. rewrite HA. destruct (Nat.compare_spec (event_at e) F); try lia. reflexivity. }
    assert (HF' : furthest start (tr ++ [e]) = event_at e) by lia.
    set (Q := event_at e) in *.
    assert (L : forall u, group Q u (tr ++ [e]) = group Q u [e]).
    { intros u. unfold group. destruct (lists_app Q u tr [e]) as (-> & -> & ->).
      destruct (lists_other Q u tr) as (-> & -> & ->); [|reflexivity].
      intros x Hx. apply (furthest_ge start) in Hx. fold F in Hx. lia. }
    assert (UPD : forall ch f, event_chain e = ch ->
       (forall u, u <> upper ch Q -> group Q u [e] = ([], [], [])) ->
       group Q (upper ch Q) [e] = f ([], [], []) -> nonempty (f ([], [], [])) = true ->
       represents start (tr ++ [e]) (Q, map_update (upper ch Q) f [])).
    { intros ch f _ H1 H2 H3. repeat split; cbn [fst snd].
      - lia.
      - repeat constructor.
      - intros u. rewrite HF', L. cbn [map_update lookup].
        destruct (key_compare u (upper ch Q)) eqn:E.
        + apply key_compare_eq in E. subst u. cbn zeta. rewrite H2, H3. reflexivity.
        + rewrite H1; [reflexivity|]. intros ->. rewrite key_compare_refl in E. discriminate.
        + rewrite H1; [reflexivity|]. intros ->. rewrite key_compare_refl in E. discriminate. }
    assert (Same : (forall u, group Q u [e] = ([], [], [])) ->
       represents start (tr ++ [e]) (Q, [])).
    { intros H. repeat split; cbn [fst snd]; auto.
      - constructor.
      - intros u. rewrite HF', L, H. reflexivity. }
    assert (KT : forall u, same_key u u = true) by (intros; apply same_key_iff; auto).
    assert (KF : forall u v, u <> v -> same_key v u = false).
    { intros u v N. destruct (same_key v u) eqn:E; auto. apply same_key_iff in E. congruence. }
    destruct e as [ch r p pol ok|ch p x]; simpl in Q, P; subst Q; cbn [play_event]; rewrite P;
      cbv iota beta; cbn [fst snd].
    + destruct pol, ok; simpl (Bool.eqb _ _); cbn [negb andb];
        first [ apply Same; intros u; reflexivity
              | apply UPD; auto;
                [ intros u N; unfold group; cbn [expected_list unexpected_list misuse_list flat_map];
                  rewrite KF by auto; rewrite andb_false_r; reflexivity
                | unfold group; cbn [expected_list unexpected_list misuse_list flat_map];
                  rewrite Nat.eqb_refl, KT; reflexivity ] ].
    + apply UPD; auto.
      * intros u N. unfold group. cbn [expected_list unexpected_list misuse_list flat_map].
        rewrite KF by auto. rewrite andb_false_r. reflexivity.
      * unfold group. cbn [expected_list unexpected_list misuse_list flat_map].
        rewrite Nat.eqb_refl, KT. reflexivity.
Qed.

Lemma represents_all : forall start tr, represents start tr (play_all tr (start, [])).
Proof.
  intros start tr. induction tr as [|e tr IH] using rev_ind.
  - repeat split; simpl; auto. constructor.
  - unfold play_all. rewrite fold_left_app. simpl. apply represents_snoc. exact IH.
Qed.

(** Membership in the three lists. *)
Lemma expected_list_in : forall p u tr r,
  In r (expected_list p u tr) <-> exists e, In e tr /\ expected_event p u r e.
Proof.
  intros p u tr r. unfold expected_list, expected_event. rewrite in_flat_map.
  split; intros (e & H1 & H2).
  - exists e. split; auto. destruct e as [ch q at_ [] []|]; simpl in H2; try contradiction.
    destruct (at_ =? p) eqn:E1; simpl in H2; [|contradiction].
    destruct (same_key (upper ch p) u) eqn:E2; simpl in H2; [|contradiction].
    destruct H2 as [->|[]]. apply Nat.eqb_eq in E1. apply same_key_iff in E2. subst.
    exists ch. auto.
  - destruct H2 as (ch & -> & H). exists (Attempt ch r p true false). split; auto.
    rewrite Nat.eqb_refl. replace (same_key (upper ch p) u) with true.
    + left. reflexivity.
    + symmetry. apply same_key_iff. exact H.
Qed.
Lemma unexpected_list_in : forall p u tr r,
  In r (unexpected_list p u tr) <-> exists e, In e tr /\ unexpected_event p u r e.
Proof.
  intros p u tr r. unfold unexpected_list, unexpected_event. rewrite in_flat_map.
  split; intros (e & H1 & H2).
  - exists e. split; auto. destruct e as [ch q at_ [] []|]; simpl in H2; try contradiction.
    destruct (at_ =? p) eqn:E1; simpl in H2; [|contradiction].
    destruct (same_key (upper ch p) u) eqn:E2; simpl in H2; [|contradiction].
    destruct H2 as [->|[]]. apply Nat.eqb_eq in E1. apply same_key_iff in E2. subst.
    exists ch. auto.
  - destruct H2 as (ch & -> & H). exists (Attempt ch r p false true). split; auto.
    rewrite Nat.eqb_refl. replace (same_key (upper ch p) u) with true.
    + left. reflexivity.
    + symmetry. apply same_key_iff. exact H.
Qed.
Lemma misuse_list_in : forall p u tr x,
  In x (misuse_list p u tr) <-> exists e, In e tr /\ misuse_event p u x e.
Proof.
  intros p u tr x. unfold misuse_list, misuse_event. rewrite in_flat_map.
  split; intros (e & H1 & H2).
  - exists e. split; auto. destruct e as [ch q at_ a b|ch at_ y]; simpl in H2.
    + destruct a, b; contradiction.
    + destruct (at_ =? p) eqn:E1; simpl in H2; [|contradiction].
      destruct (same_key (upper ch p) u) eqn:E2; simpl in H2; [|contradiction].
      destruct H2 as [->|[]]. apply Nat.eqb_eq in E1. apply same_key_iff in E2. subst.
      exists ch. auto.
  - destruct H2 as (ch & -> & H). exists (Special ch p x). split; auto.
    rewrite Nat.eqb_refl. replace (same_key (upper ch p) u) with true.
    + left. reflexivity.
    + symmetry. apply same_key_iff. exact H.
Qed.
