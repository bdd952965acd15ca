(** Proofs about state machines. *)
From Coq Require Import String List NArith Arith Bool Lia.
From Verif Require Import Model_Text Model_State Spec_State.
Import ListNotations.
Open Scope list_scope.

(** What is generated. *)
Definition ids (l : list (state_id * code)) : list state_id := map fst l.
Definition targets (c : code) : list state_id :=
  match c with
  | Code_nothing | Code_fail => []
  | Code_goto t => [t]
  | Code_byte _ _ a r | Code_wide _ _ _ a r => [a; r]
  end.

Lemma gen_supported : forall e a r b, (exists g b', gen_expr e a r b = Ret (g, b') /\ supported e) \/ (gen_expr e a r b = Panic /\ ~ supported e).
Proof.
  induction e; intros a q b; cbn [gen_expr]; try (right; split; [reflexivity|intro H; inversion H]; fail).
  - left. destruct ((len_utf8 lo =? 1) && (len_utf8 hi =? 1)); eexists _, _; (split; [reflexivity|constructor]).
  - cbn [next_id].
    destruct (IHe1 (S (b_count b)) q (mkBuilder (b_states b) (S (S (b_count b))))) as [(g & b1 & E & U)|(E & U)]; cbn [b_states b_count]; rewrite E; cbn [obind].
    + destruct (IHe2 a q b1) as [(g2 & b2 & E2 & U2)|(E2 & U2)]; rewrite E2; cbn [obind].
      * left. eexists _, _. split; [reflexivity|constructor; assumption].
      * right. split; [reflexivity|]. intro H. inversion H; auto.
    + right. split; [reflexivity|]. intro H. inversion H; auto.
  - cbn [next_id].
    destruct (IHe1 a (S (b_count b)) (mkBuilder (b_states b) (S (S (b_count b))))) as [(g & b1 & E & U)|(E & U)]; cbn [b_states b_count]; rewrite E; cbn [obind].
    + destruct (IHe2 a q b1) as [(g2 & b2 & E2 & U2)|(E2 & U2)]; rewrite E2; cbn [obind].
      * left. eexists _, _. split; [reflexivity|constructor; assumption].
      * right. split; [reflexivity|]. intro H. inversion H; auto.
    + right. split; [reflexivity|]. intro H. inversion H; auto.
  - cbn [next_id].
    destruct (IHe (b_count b) a (mkBuilder (b_states b) (S (b_count b)))) as [(g & b1 & E & U)|(E & U)]; cbn [b_states b_count]; rewrite E; cbn [obind].
    + left. eexists _, _. split; [reflexivity|constructor; assumption].
    + right. split; [reflexivity|]. intro H. inversion H; auto.
Qed.

(** The shape of the states, with the ones of the parts inside. *)
Record grown (a r : state_id) (b : builder) (g : generated) (b' : builder) (new : list (state_id * code)) : Prop := {
  gr_states : b_states b' = b_states b ++ new;
  gr_count : b_count b <= b_count b';
  gr_ids : forall x, In x (ids new) <-> b_count b <= x < b_count b';
  gr_distinct : NoDup (ids new);
  gr_targets : forall c t, In c (tokens_of g :: map snd new) -> In t (targets c) -> t = a \/ t = r \/ In t (ids new) }.

Lemma nodup_app : forall (l k : list nat), NoDup l -> NoDup k -> (forall x, In x l -> ~ In x k) -> NoDup (l ++ k).
Proof.
  intros l k A B H. induction A as [|x l N A IH]; cbn; [exact B|]. constructor.
  - rewrite in_app_iff. intros [P|P]; [contradiction|]. apply (H x); [left; reflexivity|exact P].
  - apply IH. intros y P. apply H. right. exact P.
Qed.
Lemma two_grown : forall a q b al ql gl b1 n1 gr b2 n2,
  grown al ql (mkBuilder (b_states b) (S (S (b_count b)))) gl b1 n1 -> grown a q b1 gr b2 n2 ->
  (al = a \/ al = S (b_count b)) -> (ql = q \/ ql = S (b_count b)) ->
  grown a q b (G_state (b_count b)) (push_state (S (b_count b), tokens_of gr) (push_state (b_count b, tokens_of gl) b2))
    (n1 ++ n2 ++ [(b_count b, tokens_of gl); (S (b_count b), tokens_of gr)]).
Proof.
  intros a q b al ql gl b1 n1 gr b2 n2 [A1 A2 A3 A4 A5] [B1 B2 B3 B4 B5] Ea Eq. cbn [b_states b_count] in *.
  assert (In' : forall x, In x (ids (n1 ++ n2 ++ [(b_count b, tokens_of gl); (S (b_count b), tokens_of gr)])) <->
    In x (ids n1) \/ In x (ids n2) \/ x = b_count b \/ x = S (b_count b)).
  { intro x. unfold ids. rewrite !map_app, !in_app_iff. cbn [map fst In]. intuition auto. }
  constructor; cbn [push_state b_states b_count].
  - rewrite B1, A1, <- !app_assoc. reflexivity.
  - lia.
  - intro x. rewrite In', A3, B3. lia.
  - unfold ids. rewrite !map_app. apply nodup_app; [exact A4|apply nodup_app; [exact B4| |]|].
    + cbn. constructor; [cbn; lia|]. constructor; [cbn; tauto|constructor].
    + intros x X. apply B3 in X. cbn. lia.
    + intros x X. apply A3 in X. rewrite in_app_iff. intros [Y|Y]; [apply B3 in Y; lia|cbn in Y; lia].
  - intros c t C T. rewrite In'. cbn [tokens_of] in C. rewrite !map_app in C. cbn [map snd] in C. destruct C as [<-|C].
    { destruct T as [<-|[]]. auto 10. }
    rewrite !in_app_iff in C.
    assert (C' : In c (tokens_of gl :: map snd n1) \/ In c (tokens_of gr :: map snd n2)) by (cbn in *; intuition).
    destruct C' as [C'|C']; [destruct (A5 _ _ C' T) as [X|[X|X]]|destruct (B5 _ _ C' T) as [X|[X|X]]]; subst; intuition.
Qed.

Lemma gen_grown : forall e a r b g b', gen_expr e a r b = Ret (g, b') -> exists new, grown a r b g b' new.
Proof.
  induction e; intros a q b g b' H; cbn [gen_expr] in H; try discriminate H.
  - exists []. destruct ((len_utf8 lo =? 1) && (len_utf8 hi =? 1)); injection H as <- <-;
      (constructor; [symmetry; apply app_nil_r|lia|cbn; lia|constructor|]); intros c t [<-|[]] T; cbn in T; intuition.
  - cbn [next_id b_states b_count] in H.
    destruct (gen_expr e1 (S (b_count b)) q (mkBuilder (b_states b) (S (S (b_count b))))) as [(gl, b1)| |] eqn:E1; try discriminate H. cbn [obind] in H.
    destruct (gen_expr e2 a q b1) as [(gr, b2)| |] eqn:E2; try discriminate H. cbn [obind] in H. injection H as <- <-.
    destruct (IHe1 _ _ _ _ _ E1) as (n1 & G1), (IHe2 _ _ _ _ _ E2) as (n2 & G2).
    eexists. eapply two_grown; [exact G1|exact G2|auto|auto].
  - cbn [next_id b_states b_count] in H.
    destruct (gen_expr e1 a (S (b_count b)) (mkBuilder (b_states b) (S (S (b_count b))))) as [(gl, b1)| |] eqn:E1; try discriminate H. cbn [obind] in H.
    destruct (gen_expr e2 a q b1) as [(gr, b2)| |] eqn:E2; try discriminate H. cbn [obind] in H. injection H as <- <-.
    destruct (IHe1 _ _ _ _ _ E1) as (n1 & G1), (IHe2 _ _ _ _ _ E2) as (n2 & G2).
    eexists. eapply two_grown; [exact G1|exact G2|auto|auto].
  - cbn [next_id b_states b_count] in H.
    destruct (gen_expr e (b_count b) a (mkBuilder (b_states b) (S (b_count b)))) as [(gl, b1)| |] eqn:E1; try discriminate H. cbn [obind] in H.
    injection H as <- <-. destruct (IHe _ _ _ _ _ E1) as (n1 & [A1 A2 A3 A4 A5]). cbn [b_states b_count] in *.
    exists (n1 ++ [(b_count b, tokens_of gl)]).
    assert (In' : forall x, In x (ids (n1 ++ [(b_count b, tokens_of gl)])) <-> In x (ids n1) \/ x = b_count b).
    { intro x. unfold ids. rewrite map_app, in_app_iff. cbn [map fst In]. intuition auto. }
    constructor; cbn [push_state b_states b_count].
    + rewrite A1, <- app_assoc. reflexivity.
    + lia.
    + intro x. rewrite In', A3. lia.
    + unfold ids. rewrite map_app. apply nodup_app; [exact A4|cbn; constructor; [cbn; tauto|constructor]|].
      intros x X. apply A3 in X. cbn. lia.
    + intros c t C T. rewrite In'. cbn [tokens_of] in C. rewrite map_app in C. cbn [map snd] in C. destruct C as [<-|C].
      { destruct T as [<-|[]]. auto 10. }
      rewrite in_app_iff in C. assert (C' : In c (tokens_of gl :: map snd n1)) by (cbn in *; intuition).
      destruct (A5 _ _ C' T) as [X|[X|X]]; subst; intuition.
Qed.

(** The code of an expression in a list of states. *)
Section States.
Variable st : list (state_id * code).
Definition state_is (i : state_id) (c : code) : Prop := find (fun x => fst x =? i) st = Some (i, c).

Inductive compiled : expr -> state_id -> state_id -> code -> Prop :=
| Co_byte lo hi a r : (lo < 0x80 /\ hi < 0x80)%N -> compiled (X_range lo hi) a r (Code_byte lo hi a r)
| Co_wide lo hi a r : ~ (lo < 0x80 /\ hi < 0x80)%N -> compiled (X_range lo hi) a r (Code_wide (Nat.max (len_utf8 lo) (len_utf8 hi)) lo hi a r)
| Co_seq x y a r i j c d : state_is i c -> state_is j d -> compiled x j r c -> compiled y a r d -> compiled (X_seq x y) a r (Code_goto i)
| Co_choice x y a r i j c d : state_is i c -> state_is j d -> compiled x a j c -> compiled y a r d -> compiled (X_choice x y) a r (Code_goto i)
| Co_rep x a r i c : state_is i c -> compiled x i a c -> compiled (X_rep x) a r (Code_goto i).

Lemma one_byte : forall c, len_utf8 c = 1 <-> (c < 0x80)%N.
Proof.
  intro c. unfold len_utf8. destruct (c <? 0x80)%N eqn:A; [apply N.ltb_lt in A; tauto|]. apply N.ltb_ge in A.
  destruct (c <? 0x800)%N; [split; lia|]. destruct (c <? 0x10000)%N; split; lia.
Qed.

Lemma gen_compiled : forall e a r b g b', gen_expr e a r b = Ret (g, b') ->
  (forall i c, In (i, c) (b_states b') -> state_is i c) -> compiled e a r (tokens_of g).
Proof.
  induction e; intros a q b g b' H F; cbn [gen_expr] in H; try discriminate H.
  - destruct (len_utf8 lo =? 1) eqn:A, (len_utf8 hi =? 1) eqn:B; cbn [andb] in H; injection H as <- <-; cbn [tokens_of];
      assert (P := one_byte lo); assert (Q := one_byte hi);
      first [apply Nat.eqb_eq in A|apply Nat.eqb_neq in A]; first [apply Nat.eqb_eq in B|apply Nat.eqb_neq in B]; constructor; tauto.
  - cbn [next_id b_states b_count] in H.
    destruct (gen_expr e1 (S (b_count b)) q (mkBuilder (b_states b) (S (S (b_count b))))) as [(gl, b1)| |] eqn:E1; try discriminate H. cbn [obind] in H.
    destruct (gen_expr e2 a q b1) as [(gr, b2)| |] eqn:E2; try discriminate H. cbn [obind] in H. injection H as <- <-.
    destruct (gen_grown _ _ _ _ _ _ E2) as (n2 & [A _ _ _ _]). cbn [push_state b_states] in F.
    eapply Co_seq.
    + apply F. rewrite !in_app_iff. left. right. left. reflexivity.
    + apply F. rewrite !in_app_iff. right. left. reflexivity.
    + eapply IHe1; [exact E1|]. intros i c X. apply F. rewrite A, !in_app_iff. auto.
    + eapply IHe2; [exact E2|]. intros i c X. apply F. rewrite !in_app_iff. auto.
  - cbn [next_id b_states b_count] in H.
    destruct (gen_expr e1 a (S (b_count b)) (mkBuilder (b_states b) (S (S (b_count b))))) as [(gl, b1)| |] eqn:E1; try discriminate H. cbn [obind] in H.
    destruct (gen_expr e2 a q b1) as [(gr, b2)| |] eqn:E2; try discriminate H. cbn [obind] in H. injection H as <- <-.
    destruct (gen_grown _ _ _ _ _ _ E2) as (n2 & [A _ _ _ _]). cbn [push_state b_states] in F.
    eapply Co_choice.
    + apply F. rewrite !in_app_iff. left. right. left. reflexivity.
    + apply F. rewrite !in_app_iff. right. left. reflexivity.
    + eapply IHe1; [exact E1|]. intros i c X. apply F. rewrite A, !in_app_iff. auto.
    + eapply IHe2; [exact E2|]. intros i c X. apply F. rewrite !in_app_iff. auto.
  - cbn [next_id b_states b_count] in H.
    destruct (gen_expr e (b_count b) a (mkBuilder (b_states b) (S (b_count b)))) as [(gl, b1)| |] eqn:E1; try discriminate H. cbn [obind] in H.
    injection H as <- <-. cbn [push_state b_states] in F. eapply Co_rep.
    + apply F. rewrite in_app_iff. right. left. reflexivity.
    + eapply IHe; [exact E1|]. intros i c X. apply F. rewrite in_app_iff. auto.
Qed.

(** Running. *)
Definition exec (fuel : nat) (c : code) (m : machine) : outcome machine :=
  match c with
  | Code_nothing => Ret m
  | Code_fail => Ret (mkMachine (m_input m) (m_index m) false)
  | Code_goto to => call st fuel to m
  | Code_byte lo hi accept reject =>
      match nth_error (m_input m) (m_index m) with
      | Some b =>
          if ((lo <=? b) && (b <=? hi))%N
          then call st fuel accept (mkMachine (m_input m) (m_index m + 1) (m_result m))
          else call st fuel reject m
      | None => call st fuel reject m
      end
  | Code_wide len lo hi accept reject =>
      match bytes_get (m_input m) (m_index m) (m_index m + len) with
      | Some slice =>
          if ((lo <=? from_le slice) && (from_le slice <=? hi))%N
          then call st fuel accept (mkMachine (m_input m) (m_index m + len) (m_result m))
          else call st fuel reject m
      | None => call st fuel reject m
      end
  end.
Lemma call_state : forall k i c m, state_is i c -> call st (S k) i m = exec k c m.
Proof. intros k i c m H. cbn [call]. unfold state_is in H. rewrite H. destruct c; reflexivity. Qed.

Lemma number_le : forall l n, number l n <-> n = from_le l.
Proof.
  induction l as [|b l IH]; intro n; cbn [number from_le]; [reflexivity|]. split.
  - intros (k & A & ->). apply IH in A. subst. reflexivity.
  - intros ->. exists (from_le l). split; [apply IH; reflexivity|reflexivity].
Qed.
Lemma skipn_more : forall (l : list byte) i x k, skipn i l = x ++ k -> skipn (i + length x) l = k.
Proof.
  intros l i x k. revert l. induction i as [|i IH]; intros l H.
  - cbn [skipn Nat.add] in *. rewrite H. rewrite skipn_app, skipn_all, Nat.sub_diag. reflexivity.
  - destruct l as [|b l]; cbn [skipn Nat.add] in *; [|apply IH; exact H]. symmetry in H. apply app_eq_nil in H. destruct H as (_ & ->). reflexivity.
Qed.

Lemma nth_skipn : forall n (l : list byte), nth_error l n = hd_error (skipn n l).
Proof. induction n as [|n IH]; intros [|b l]; cbn; auto. Qed.

Lemma range_exec : forall lo hi a r c k m, compiled (X_range lo hi) a r c ->
  (exists x l, skipn (m_index m) (m_input m) = x ++ l /\ takes lo hi x /\
     exec k c m = call st k a (mkMachine (m_input m) (m_index m + length x) (m_result m))) \/
  ((forall x l, skipn (m_index m) (m_input m) = x ++ l -> ~ takes lo hi x) /\ exec k c m = call st k r m).
Proof.
  intros lo hi a r c k m H. set (bs := m_input m). set (i := m_index m). inversion H; subst; cbn [exec]; fold bs i.
  - match goal with A : (_ /\ _)%N |- _ => rename A into Hs end.
    assert (N : nth_error bs i = hd_error (skipn i bs)).
    { apply nth_skipn. }
    rewrite N. destruct (skipn i bs) as [|b l] eqn:E; cbn [hd_error].
    + right. split; [|reflexivity]. intros x l X [(_ & b & -> & _)|(A & _)]; [discriminate X|contradiction].
    + destruct ((lo <=? b) && (b <=? hi))%N eqn:T.
      * left. apply andb_true_iff in T. rewrite !N.leb_le in T. exists [b], l. split; [reflexivity|]. split; [|reflexivity].
        left. split; [assumption|]. exists b. auto.
      * right. split; [|reflexivity]. intros x y X [(_ & b' & -> & R)|(A & _)]; [|contradiction]. injection X as <- <-.
        apply andb_false_iff in T. rewrite !N.leb_gt in T. lia.
  - match goal with A : ~ (_ /\ _)%N |- _ => rename A into Hs end.
    set (len := Nat.max (len_utf8 lo) (len_utf8 hi)). unfold bytes_get. rewrite (proj2 (Nat.leb_le i (i + len))) by lia. cbn [andb].
    replace (i + len - i) with len by lia. destruct (i + len <=? length bs) eqn:B.
    + apply Nat.leb_le in B. assert (L : length (firstn len (skipn i bs)) = len) by (rewrite firstn_length, skipn_length; lia).
      destruct ((lo <=? from_le (firstn len (skipn i bs))) && (from_le (firstn len (skipn i bs)) <=? hi))%N eqn:T.
      * left. apply andb_true_iff in T. rewrite !N.leb_le in T. exists (firstn len (skipn i bs)), (skipn len (skipn i bs)).
        rewrite firstn_skipn, L. split; [reflexivity|]. split; [|reflexivity]. right. split; [assumption|]. split; [exact L|].
        exists (from_le (firstn len (skipn i bs))). rewrite number_le. auto.
      * right. split; [|reflexivity]. intros x l X [(A & _)|(_ & Lx & n & Nu & R)]; [contradiction|]. apply number_le in Nu. subst n. fold len in Lx.
        rewrite X, <- Lx, firstn_app, firstn_all, Nat.sub_diag, firstn_O, app_nil_r in T.
        apply andb_false_iff in T. rewrite !N.leb_gt in T. lia.
    + right. split; [|reflexivity]. intros x l X [(A & _)|(_ & Lx & _)]; [contradiction|]. apply Nat.leb_gt in B. fold len in Lx.
      apply (f_equal (@length _)) in X. rewrite skipn_length, app_length in X.
      assert (0 < len) by (unfold len, len_utf8; repeat match goal with |- context [if ?t then _ else _] => destruct t end; lia). lia.
Qed.

Definition left (m : machine) : list byte := skipn (m_index m) (m_input m).
Definition advance (m : machine) (n : nat) : machine := mkMachine (m_input m) (m_index m + n) (m_result m).
Lemma advance_twice : forall m a b, advance (advance m a) b = advance m (a + b).
Proof. intros m a b. unfold advance. cbn. f_equal. lia. Qed.
Lemma advance_none : forall m, advance m 0 = m.
Proof. intros (i, n, r). unfold advance. cbn. rewrite Nat.add_0_r. reflexivity. Qed.
Lemma left_advance : forall m x l, left m = x ++ l -> left (advance m (length x)) = l.
Proof. intros m x l H. exact (skipn_more _ _ _ _ H). Qed.

(** Running code ends at one of the two states after it. *)
Lemma exec_scans : forall e a r c k m, compiled e a r c ->
  exec k c m = OutOfFuel \/
  exists b x l k', left m = x ++ l /\ scans e (left m) b l /\ k' <= k /\
    exec k c m = call st k' (if b then a else r) (advance m (length x)).
Proof.
  induction e; intros a q c k m H; try (inversion H; fail).
  - right. destruct (range_exec _ _ _ _ _ k m H) as [(x & l & E & T & X)|(N & X)]; rewrite X.
    + exists true, x, l, k. split; [exact E|]. split; [|split; [lia|reflexivity]]. unfold left. rewrite E. constructor. exact T.
    + exists false, [], (left m), k. split; [reflexivity|]. split; [|split; [lia|cbn [length]; rewrite advance_none; reflexivity]]. constructor. exact N.
  - inversion H as [| |? ? ? ? i j c1 c2 S1 S2 C1 C2| |]; subst. cbn [exec]. destruct k as [|k]; [left; reflexivity|]. rewrite (call_state _ _ _ _ S1).
    destruct (IHe1 _ _ _ k m C1) as [O|(b & x & l & k1 & E & S & L & X)]; [left; exact O|]. destruct b.
    + rewrite X. destruct k1 as [|k1]; [left; reflexivity|]. rewrite (call_state _ _ _ _ S2).
      destruct (IHe2 _ _ _ k1 (advance m (length x)) C2) as [O|(b & y & l2 & k2 & E2 & Sc & L2 & X2)]; [left; exact O|]. right.
      rewrite (left_advance _ _ _ E) in E2, Sc. exists b, (x ++ y), l2, k2. rewrite X2, advance_twice, app_length.
      split; [rewrite E, E2; apply app_assoc|]. split; [econstructor; eassumption|]. split; [lia|reflexivity].
    + right. exists false, x, l, k1. split; [exact E|]. split; [apply Sc_seq_fail; exact S|]. split; [lia|exact X].
  - inversion H as [| | |? ? ? ? i j c1 c2 S1 S2 C1 C2|]; subst. cbn [exec]. destruct k as [|k]; [left; reflexivity|]. rewrite (call_state _ _ _ _ S1).
    destruct (IHe1 _ _ _ k m C1) as [O|(b & x & l & k1 & E & S & L & X)]; [left; exact O|]. destruct b.
    + right. exists true, x, l, k1. split; [exact E|]. split; [apply Sc_first; exact S|]. split; [lia|exact X].
    + rewrite X. destruct k1 as [|k1]; [left; reflexivity|]. rewrite (call_state _ _ _ _ S2).
      destruct (IHe2 _ _ _ k1 (advance m (length x)) C2) as [O|(b & y & l2 & k2 & E2 & Sc & L2 & X2)]; [left; exact O|]. right.
      rewrite (left_advance _ _ _ E) in E2, Sc. exists b, (x ++ y), l2, k2. rewrite X2, advance_twice, app_length.
      split; [rewrite E, E2; apply app_assoc|]. split; [eapply Sc_second; eassumption|]. split; [lia|reflexivity].
  - inversion H as [| | | |? ? ? i c1 S1 C1]; subst. cbn [exec]. revert m. induction k as [k IHk] using lt_wf_ind. intro m.
    destruct k as [|k]; [left; reflexivity|]. rewrite (call_state _ _ _ _ S1).
    destruct (IHe _ _ _ k m C1) as [O|(b & x & l & k1 & E & S & L & X)]; [left; exact O|]. destruct b.
    + rewrite X. destruct (IHk k1 ltac:(lia) (advance m (length x))) as [O|(b & y & l2 & k2 & E2 & Sc & L2 & X2)]; [left; exact O|]. right.
      rewrite (left_advance _ _ _ E) in E2, Sc. exists b, (x ++ y), l2, k2. rewrite X2, advance_twice, app_length.
      split; [rewrite E, E2; apply app_assoc|]. split; [eapply Sc_again; eassumption|]. split; [lia|reflexivity].
    + right. exists true, x, l, k1. split; [exact E|]. split; [apply Sc_stop; exact S|]. split; [lia|exact X].
Qed.

(** Whatever the meaning says is reached. *)
Lemma scans_exec : forall e l b l', scans e l b l' -> forall a r c m, compiled e a r c -> left m = l ->
  exists x d, l = x ++ l' /\ forall k, exec (d + k) c m = call st k (if b then a else r) (advance m (length x)).
Proof.
  intros e l b l' H.
  induction H as [lo hi y l T|lo hi l N|x y l k b j H1 IH1 H2 IH2|x y l k H1 IH1|x y l k H1 IH1|x y l k b j H1 IH1 H2 IH2|x l k H1 IH1|x l k b j H1 IH1 H2 IH2];
    intros a r c m C E.
  - exists y, 0. split; [reflexivity|]. intro k. cbn [Nat.add]. destruct (range_exec _ _ _ _ _ k m C) as [(x' & l' & E' & T' & X)|(N & X)].
    + rewrite X. unfold left in E. rewrite E' in E.
      assert (Le : length x' = length y).
      { destruct T as [(P & u & -> & _)|(P & L & _)], T' as [(P' & u' & -> & _)|(P' & L' & _)]; try contradiction; [reflexivity|congruence]. }
      rewrite Le. reflexivity.
    + exfalso. exact (N _ _ E T).
  - exists [], 0. split; [reflexivity|]. intro k. cbn [Nat.add length]. rewrite advance_none. destruct (range_exec _ _ _ _ _ k m C) as [(x' & l' & E' & T' & X)|(_ & X)]; [|exact X].
    exfalso. unfold left in E. rewrite E in E'. exact (N _ _ E' T').
  - inversion C as [| |? ? ? ? p q c1 c2 S1 S2 C1 C2| |]; subst. destruct (IH1 _ _ _ _ C1 eq_refl) as (u & d & Eu & X).
    destruct (IH2 _ _ _ (advance m (length u)) C2 (left_advance _ _ _ Eu)) as (v & d2 & Ev & X2).
    exists (u ++ v), (S d + S d2). split; [rewrite Eu, Ev; apply app_assoc|]. intro f. cbn [exec].
    replace (S d + S d2 + f) with (S (d + (S (d2 + f)))) by lia. rewrite (call_state _ _ _ _ S1), X, (call_state _ _ _ _ S2), X2, advance_twice, app_length. reflexivity.
  - inversion C as [| |? ? ? ? p q c1 c2 S1 S2 C1 C2| |]; subst. destruct (IH1 _ _ _ _ C1 eq_refl) as (u & d & Eu & X).
    exists u, (S d). split; [exact Eu|]. intro f. cbn [exec Nat.add]. rewrite (call_state _ _ _ _ S1). apply X.
  - inversion C as [| | |? ? ? ? p q c1 c2 S1 S2 C1 C2|]; subst. destruct (IH1 _ _ _ _ C1 eq_refl) as (u & d & Eu & X).
    exists u, (S d). split; [exact Eu|]. intro f. cbn [exec Nat.add]. rewrite (call_state _ _ _ _ S1). apply X.
  - inversion C as [| | |? ? ? ? p q c1 c2 S1 S2 C1 C2|]; subst. destruct (IH1 _ _ _ _ C1 eq_refl) as (u & d & Eu & X).
    destruct (IH2 _ _ _ (advance m (length u)) C2 (left_advance _ _ _ Eu)) as (v & d2 & Ev & X2).
    exists (u ++ v), (S d + S d2). split; [rewrite Eu, Ev; apply app_assoc|]. intro f. cbn [exec].
    replace (S d + S d2 + f) with (S (d + (S (d2 + f)))) by lia. rewrite (call_state _ _ _ _ S1), X, (call_state _ _ _ _ S2), X2, advance_twice, app_length. reflexivity.
  - inversion C as [| | | |? ? ? i c1 S1 C1]; subst. destruct (IH1 _ _ _ _ C1 eq_refl) as (u & d & Eu & X).
    exists u, (S d). split; [exact Eu|]. intro f. cbn [exec Nat.add]. rewrite (call_state _ _ _ _ S1). apply X.
  - inversion C as [| | | |? ? ? i c1 S1 C1]; subst. destruct (IH1 _ _ _ _ C1 eq_refl) as (u & d & Eu & X).
    destruct (IH2 _ _ _ (advance m (length u)) C (left_advance _ _ _ Eu)) as (v & d2 & Ev & X2).
    exists (u ++ v), (S d + d2). split; [rewrite Eu, Ev; apply app_assoc|]. intro f. cbn [exec] in *.
    replace (S d + d2 + f) with (S (d + (d2 + f))) by lia. rewrite (call_state _ _ _ _ S1), X, X2, advance_twice, app_length. reflexivity.
Qed.
End States.

Lemma find_unique : forall (l : list (state_id * code)) i c, NoDup (ids l) -> In (i, c) l -> state_is l i c.
Proof.
  unfold state_is. intros l i c N H. induction l as [|(j, d) l IH]; [destruct H|]. cbn [ids map fst] in N. inversion N as [|? ? A B]; subst. cbn [find fst].
  destruct H as [H|H]; [injection H as -> ->; rewrite Nat.eqb_refl; reflexivity|].
  destruct (j =? i) eqn:E; [|apply IH; assumption]. apply Nat.eqb_eq in E. subst. exfalso. apply A. apply (in_map fst) in H. exact H.
Qed.

(** What [build] makes. *)
Lemma built : forall rules name p, build rules name = Ret (Some p) -> exists e g,
  rules name = Some e /\ supported e /\ NoDup (ids (p_states p)) /\
  (forall c t, In c (map snd (p_states p)) -> In t (targets c) -> In t (ids (p_states p))) /\
  state_is (p_states p) 0 Code_nothing /\ state_is (p_states p) 1 Code_fail /\ state_is (p_states p) (p_enter p) (tokens_of g) /\
  compiled (p_states p) e 0 1 (tokens_of g).
Proof.
  intros rules name p H. unfold build in H. cbn [next_id b_states b_count push_state app] in H. destruct (rules name) as [e|]; [|discriminate H].
  cbn [next_id b_states b_count] in H. match type of H with context [gen_expr e 0 1 ?b] => set (b0 := b) in H end.
  destruct (gen_expr e 0 1 b0) as [(g, b)| |] eqn:E; try discriminate H. cbn [obind] in H.
  injection H as <-. exists e, g. split; [reflexivity|].
  destruct (gen_supported e 0 1 b0) as [(g1 & b1 & _ & U)|(E' & _)]; [|congruence]. split; [exact U|].
  destruct (gen_grown _ _ _ _ _ _ E) as (new & [A1 A2 A3 A4 A5]). subst b0. cbn [b_states b_count p_states p_enter push_state] in *.
  assert (N : NoDup (ids (b_states b ++ [(2, tokens_of g)]))).
  { rewrite A1. unfold ids. rewrite !map_app. cbn [map fst]. change (map fst new) with (ids new). rewrite <- app_assoc. apply nodup_app; [| |].
    - constructor; [cbn; lia|]. constructor; [cbn; tauto|constructor].
    - apply nodup_app; [exact A4|constructor; [cbn; tauto|constructor]|]. intros x X. apply A3 in X. cbn. lia.
    - intros x X. rewrite in_app_iff, A3. cbn in *. lia. }
  split; [exact N|]. split.
  - intros c t C T. rewrite A1 in *. unfold ids in *. rewrite !map_app in *. cbn [map fst snd] in *. rewrite !in_app_iff in *.
    assert (C' : c = Code_nothing \/ c = Code_fail \/ In c (tokens_of g :: map snd new)) by (cbn in *; intuition).
    destruct C' as [->|[->|C']]; [destruct T|destruct T|]. destruct (A5 _ _ C' T) as [->|[->|X]]; cbn; auto.
  - assert (I0 : In (0, Code_nothing) (b_states b)) by (rewrite A1; left; reflexivity).
    assert (I1 : In (1, Code_fail) (b_states b)) by (rewrite A1; right; left; reflexivity).
    split; [apply find_unique; [exact N|]; rewrite in_app_iff; auto|]. split; [apply find_unique; [exact N|]; rewrite in_app_iff; auto|].
    split; [apply find_unique; [exact N|]; rewrite in_app_iff; right; left; reflexivity|].
    eapply gen_compiled; [exact E|]. intros i c X. apply find_unique; [exact N|]. rewrite in_app_iff. auto.
Qed.

Lemma machine_runs : forall rules name p e m m', build rules name = Ret (Some p) -> rules name = Some e ->
  ((exists k, machine_parse p k m = Ret m') <->
   exists b x l, left m = x ++ l /\ scans e (left m) b l /\ m' = mkMachine (m_input m) (m_index m + length x) (m_result m && b)).
Proof.
  intros rules name p e m m' B R. destruct (built _ _ _ B) as (e' & g & R' & _ & _ & _ & S0 & S1 & Se & C).
  assert (e' = e) as -> by congruence. clear R'. unfold machine_parse. split.
  - intros (k & H). destruct k as [|k]; [discriminate H|]. rewrite (call_state _ _ _ _ _ Se) in H.
    destruct (exec_scans _ _ _ _ _ k m C) as [O|(b & x & l & k' & E & Sc & _ & X)]; [congruence|]. exists b, x, l. split; [exact E|]. split; [exact Sc|].
    rewrite X in H. destruct k' as [|k']; [discriminate H|]. destruct b; [rewrite (call_state _ _ _ _ _ S0) in H|rewrite (call_state _ _ _ _ _ S1) in H];
      cbn [exec] in H; injection H as <-; cbn; rewrite ?andb_true_r, ?andb_false_r; reflexivity.
  - intros (b & x & l & E & Sc & ->). destruct (scans_exec _ _ _ _ _ Sc _ _ _ m C eq_refl) as (x' & d & E' & X).
    assert (x' = x) as ->. { rewrite E in E'. apply app_inv_tail in E'. congruence. }
    exists (S (d + 1)). rewrite (call_state _ _ _ _ _ Se), X. destruct b; [rewrite (call_state _ _ _ _ _ S0)|rewrite (call_state _ _ _ _ _ S1)];
      cbn [exec]; unfold advance; cbn; rewrite ?andb_true_r, ?andb_false_r; reflexivity.
Qed.
Lemma machine_no_panic : forall rules name p k m, build rules name = Ret (Some p) -> machine_parse p k m <> Panic.
Proof.
  intros rules name p k m B. destruct (built _ _ _ B) as (e & g & _ & _ & _ & _ & S0 & S1 & Se & C). unfold machine_parse.
  destruct k as [|k]; [discriminate|]. rewrite (call_state _ _ _ _ _ Se).
  destruct (exec_scans _ _ _ _ _ k m C) as [O|(b & x & l & k' & E & Sc & _ & X)]; [congruence|]. rewrite X.
  destruct k' as [|k']; [discriminate|]. destruct b; [rewrite (call_state _ _ _ _ _ S0)|rewrite (call_state _ _ _ _ _ S1)]; discriminate.
Qed.

(** Failing. *)
Lemma sure_accepts : forall e l b k, scans e l b k -> sure e -> b = true.
Proof.
  intros e l b k H. induction H; intro S; try reflexivity; try (inversion S; fail).
  - inversion S; auto.
  - inversion S; auto.
  - inversion S as [| |? ? A|? ? A]; subst; [specialize (IHscans1 A); discriminate IHscans1|auto].
  - auto.
Qed.
Lemma prompt_fails : forall e l k, scans e l false k -> prompt e -> k = l.
Proof.
  intros e l k H P. revert l k H. induction P as [e S|lo hi|x y P IH S|x y P IH P2 IH2]; intros l k H.
  - apply sure_accepts in H; [discriminate H|exact S].
  - inversion H; reflexivity.
  - inversion H as [| |? ? ? ? ? ? A B|? ? ? ? A| | | |]; subst; [|apply IH; exact A]. apply sure_accepts in B; [discriminate B|exact S].
  - inversion H as [| | | | |? ? ? j ? ? A B| |]; subst. apply IH in A. subst. apply IH2. exact B.
Qed.

Lemma peg_det : forall e s o, peg e s o -> forall o', peg e s o' -> o = o'.
Proof.
  intros e s o H. induction H; intros o' H'; inversion H'; subst; try reflexivity; try contradiction;
    repeat match goal with
    | IH : forall o', peg ?x ?s o' -> _ = o', A : peg ?x ?s _ |- _ => apply IH in A; try discriminate A; try (injection A as ->)
    end; auto; try congruence.
Qed.

(** The same as the grammar. *)
Lemma ascii_byte : forall c lo hi, (hi < 0x80)%N -> exists b r, bytes [c] = b :: r /\ ((lo <= b <= hi)%N <-> (lo <= c <= hi)%N) /\ ((lo <= c <= hi)%N -> r = []).
Proof.
  intros c lo hi H. cbn [bytes flat_map]. rewrite app_nil_r. unfold encode_utf8. destruct (c <? 0x80)%N eqn:A.
  - exists c, []. repeat split; tauto.
  - apply N.ltb_ge in A. destruct (c <? 0x800)%N; [|destruct (c <? 0x10000)%N]; (eexists _, _; split; [reflexivity|]; split; [|intro; lia]);
      (split; intro X; [|lia]); exfalso.
    + revert X. generalize (c / 0x40)%N. intros. lia.
    + revert X. generalize (c / 0x1000)%N. intros. lia.
    + revert X. generalize (c / 0x40000)%N. intros. lia.
Qed.
Lemma bytes_cons : forall c s, bytes (c :: s) = bytes [c] ++ bytes s.
Proof. intros c s. cbn [bytes flat_map]. rewrite app_nil_r. reflexivity. Qed.
Lemma bytes_nil : forall s, bytes s = [] -> s = [].
Proof.
  intros [|c s] H; [reflexivity|]. exfalso. rewrite bytes_cons in H. apply app_eq_nil in H. destruct H as (H & _). cbn [bytes flat_map] in H. rewrite app_nil_r in H.
  unfold encode_utf8 in H. destruct (c <? 0x80)%N; [discriminate H|]. destruct (c <? 0x800)%N; [discriminate H|]. destruct (c <? 0x10000)%N; discriminate H.
Qed.

Lemma scans_peg : forall e l b k, scans e l b k -> ascii e -> decisive e -> forall s, l = bytes s ->
  if b then exists t, k = bytes t /\ peg e s (Some t) else peg e s None.
Proof.
  intros e l b k H.
  induction H as [lo hi y l T|lo hi l N|x y l k b j H1 IH1 H2 IH2|x y l k H1 IH1|x y l k H1 IH1|x y l k b j H1 IH1 H2 IH2|x l k H1 IH1|x l k b j H1 IH1 H2 IH2];
    intros A D s E.
  - inversion A as [? ? A1 A2| | |]; subst. destruct T as [(_ & b & -> & R)|(N & _)]; [|exfalso; auto].
    destruct s as [|c s]; [discriminate E|]. rewrite bytes_cons in E. destruct (ascii_byte c lo hi A2) as (b' & r & Eb & I & Er). rewrite Eb in E. cbn [app] in E.
    injection E as <- El. assert (Rc : (lo <= c <= hi)%N) by (apply I; exact R). rewrite (Er Rc) in El. exists s. split; [exact El|]. constructor. exact Rc.
  - subst l. inversion A as [? ? A1 A2| | |]; subst. destruct s as [|c s]; [constructor|]. constructor. intro Rc.
    destruct (ascii_byte c lo hi A2) as (b' & r & Eb & I & Er). apply (N [b'] (r ++ bytes s)).
    + rewrite bytes_cons, Eb. reflexivity.
    + left. split; [auto|]. exists b'. split; [reflexivity|]. apply I. exact Rc.
  - inversion A; inversion D; subst. destruct (IH1 ltac:(assumption) ltac:(assumption) s eq_refl) as (t & Et & P).
    specialize (IH2 ltac:(assumption) ltac:(assumption) t Et). destruct b; [destruct IH2 as (t2 & E2 & P2); exists t2; split; [exact E2|]|]; econstructor; eassumption.
  - inversion A; inversion D; subst. apply P_seq_fail. apply IH1; auto.
  - inversion A; inversion D; subst. destruct (IH1 ltac:(assumption) ltac:(assumption) s eq_refl) as (t & Et & P). exists t. split; [exact Et|]. apply P_first. exact P.
  - inversion A; inversion D; subst. assert (k = bytes s) as -> by (eapply prompt_fails; eassumption).
    specialize (IH1 ltac:(assumption) ltac:(assumption) s eq_refl). cbn in IH1. specialize (IH2 ltac:(assumption) ltac:(assumption) s eq_refl).
    destruct b; [destruct IH2 as (t2 & E2 & P2); exists t2; split; [exact E2|]|]; eapply P_second; eassumption.
  - inversion A; inversion D; subst. assert (k = bytes s) as -> by (eapply prompt_fails; eassumption).
    specialize (IH1 ltac:(assumption) ltac:(assumption) s eq_refl). cbn in IH1. exists s. split; [reflexivity|]. apply P_stop. exact IH1.
  - assert (A' := A). assert (D' := D). inversion A; inversion D; subst. destruct (IH1 ltac:(assumption) ltac:(assumption) s eq_refl) as (t & Et & P).
    specialize (IH2 A' D' t Et). destruct b; [destruct IH2 as (t2 & E2 & P2); exists t2; split; [exact E2|]|]; eapply P_again; eassumption.
Qed.

Lemma peg_scans : forall e s o, peg e s o -> ascii e -> decisive e ->
  match o with Some t => scans e (bytes s) true (bytes t) | None => exists k, scans e (bytes s) false k end.
Proof.
  intros e s o H.
  induction H as [lo hi c s R|lo hi c s R|lo hi|x y s t o H1 IH1 H2 IH2|x y s H1 IH1|x y s t H1 IH1|x y s o H1 IH1 H2 IH2|x s H1 IH1|x s t o H1 IH1 H2 IH2]; intros A D.
  - inversion A as [? ? A1 A2| | |]; subst. rewrite bytes_cons. destruct (ascii_byte c lo hi A2) as (b & r & Eb & I & Er). rewrite Eb, (Er R). constructor.
    left. split; [auto|]. exists b. split; [reflexivity|]. apply I. exact R.
  - inversion A as [? ? A1 A2| | |]; subst. eexists. constructor. intros m k E [(_ & b & -> & R')|(N & _)]; [|exfalso; auto].
    rewrite bytes_cons in E. destruct (ascii_byte c lo hi A2) as (b' & r & Eb & I & Er). rewrite Eb in E. injection E as <- _. apply R, I, R'.
  - inversion A as [? ? A1 A2| | |]; subst. eexists. constructor. intros m k E [(_ & b & -> & R')|(N & _)]; [discriminate E|exfalso; auto].
  - inversion A; inversion D; subst. specialize (IH1 ltac:(assumption) ltac:(assumption)). specialize (IH2 ltac:(assumption) ltac:(assumption)). cbn in IH1.
    destruct o; [|destruct IH2 as (k & IH2); exists k]; econstructor; eassumption.
  - inversion A; inversion D; subst. destruct (IH1 ltac:(assumption) ltac:(assumption)) as (k & S). exists k. apply Sc_seq_fail. exact S.
  - inversion A; inversion D; subst. apply Sc_first. apply IH1; assumption.
  - inversion A; inversion D; subst. destruct (IH1 ltac:(assumption) ltac:(assumption)) as (k & S). specialize (IH2 ltac:(assumption) ltac:(assumption)).
    assert (k = bytes s) as -> by (eapply prompt_fails; eassumption).
    destruct o; [|destruct IH2 as (k & IH2); exists k]; eapply Sc_second; eassumption.
  - inversion A; inversion D; subst. destruct (IH1 ltac:(assumption) ltac:(assumption)) as (k & S). assert (k = bytes s) as -> by (eapply prompt_fails; eassumption).
    apply Sc_stop. exact S.
  - assert (A' := A). assert (D' := D). inversion A; inversion D; subst. specialize (IH1 ltac:(assumption) ltac:(assumption)). specialize (IH2 A' D'). cbn in IH1.
    destruct o; [|destruct IH2 as (k & IH2); exists k]; eapply Sc_again; eassumption.
Qed.

(** Ending. *)
Lemma scans_rest : forall e l b k, scans e l b k -> exists x, l = x ++ k.
Proof.
  intros e l b k H.
  induction H as [lo hi y l T|lo hi l N|x y l k b j H1 IH1 H2 IH2|x y l k H1 IH1|x y l k H1 IH1|x y l k b j H1 IH1 H2 IH2|x l k H1 IH1|x l k b j H1 IH1 H2 IH2];
    try assumption; [exists y; reflexivity|exists []; reflexivity| | |];
    destruct IH1 as (u & ->), IH2 as (v & ->); exists (u ++ v); apply app_assoc.
Qed.
Lemma takes_some : forall lo hi m, takes lo hi m -> 0 < length m.
Proof.
  intros lo hi m [(_ & b & -> & _)|(_ & L & _)]; [cbn; lia|]. rewrite L. unfold len_utf8.
  repeat match goal with |- context [if ?t then _ else _] => destruct t end; lia.
Qed.
Lemma sure_dec : forall e, sure e \/ ~ sure e.
Proof.
  induction e; try (right; intro H; inversion H; fail); try (left; constructor; fail).
  - destruct IHe1; [destruct IHe2; [left; apply Su_seq; assumption|]|]; right; intro H'; inversion H'; contradiction.
  - destruct IHe1; [left; apply Su_left; assumption|]. destruct IHe2; [left; apply Su_right; assumption|]. right. intro H'. inversion H'; contradiction.
Qed.
Lemma unsure_moves : forall e l k, scans e l true k -> ~ sure e -> length k < length l.
Proof.
  intros e l k H. remember true as b eqn:Eb. revert Eb.
  induction H as [lo hi y l T|lo hi l N|x y l k b j H1 IH1 H2 IH2|x y l k H1 IH1|x y l k H1 IH1|x y l k b j H1 IH1 H2 IH2|x l k H1 IH1|x l k b j H1 IH1 H2 IH2];
    intros Eb S; try discriminate Eb.
  - apply takes_some in T. rewrite app_length. lia.
  - subst b. destruct (scans_rest _ _ _ _ H1) as (u & ->), (scans_rest _ _ _ _ H2) as (v & ->). rewrite !app_length in *.
    assert (~ sure x \/ ~ sure y) as [Q|Q].
    { destruct (sure_dec x), (sure_dec y); auto. exfalso. apply S. constructor; assumption. }
    + specialize (IH1 eq_refl Q). lia.
    + specialize (IH2 eq_refl Q). lia.
  - apply IH1; [reflexivity|]. intro Q. apply S. apply Su_left. exact Q.
  - subst b. destruct (scans_rest _ _ _ _ H1) as (u & ->). rewrite app_length. specialize (IH2 eq_refl). 
    assert (length j < length k) by (apply IH2; intro Q; apply S; apply Su_right; exact Q). lia.
  - exfalso. apply S. constructor.
  - exfalso. apply S. constructor.
Qed.
Lemma range_decides : forall lo hi l, exists b k, scans (X_range lo hi) l b k.
Proof.
  intros lo hi l. set (c := if ((lo <? 0x80) && (hi <? 0x80))%N then Code_byte lo hi 0 0 else Code_wide (Nat.max (len_utf8 lo) (len_utf8 hi)) lo hi 0 0).
  assert (C : compiled [] (X_range lo hi) 0 0 c).
  { unfold c. destruct ((lo <? 0x80) && (hi <? 0x80))%N eqn:E; constructor; [apply andb_true_iff in E|intro X; apply andb_false_iff in E]; rewrite ?N.ltb_lt, ?N.ltb_ge in *; lia. }
  destruct (range_exec [] _ _ _ _ _ 0 (mkMachine l 0 true) C) as [(x & r & E & T & _)|(N & _)]; cbn [m_index m_input skipn] in *.
  - exists true, r. rewrite E. constructor. exact T.
  - exists false, l. constructor. exact N.
Qed.
Lemma ending_scans : forall e, ending e -> forall l, exists b k, scans e l b k.
Proof.
  intros e H. induction H as [lo hi|x y H1 IH1 H2 IH2|x y H1 IH1 H2 IH2|c S H IH].
  - apply range_decides.
  - intro l. destruct (IH1 l) as ([|] & k & A); [|exists false, k; apply Sc_seq_fail; exact A].
    destruct (IH2 k) as (b & j & B). exists b, j. econstructor; eassumption.
  - intro l. destruct (IH1 l) as ([|] & k & A); [exists true, k; apply Sc_first; exact A|].
    destruct (IH2 k) as (b & j & B). exists b, j. eapply Sc_second; eassumption.
  - intro l. remember (length l) as n eqn:E. revert l E. induction n as [n IHn] using lt_wf_ind. intros l E.
    destruct (IH l) as ([|] & k & A); [|exists true, k; apply Sc_stop; exact A].
    assert (L : length k < n) by (subst n; eapply unsure_moves; eassumption). destruct (IHn _ L k eq_refl) as (b & j & B). exists b, j. eapply Sc_again; eassumption.
Qed.
Lemma sure_forever : forall c, sure c -> forall l b k, ~ scans (X_rep c) l b k.
Proof.
  intros c S l b k H. remember (X_rep c) as e eqn:E. revert E. induction H; intro E; try discriminate E; injection E as ->; [|auto].
  apply sure_accepts in H; [discriminate H|exact S].
Qed.

(** Ranges that are not of ASCII. *)
Lemma last_le : forall l b, (b * 256 ^ N.of_nat (length l) <= from_le (l ++ [b]))%N.
Proof.
  induction l as [|x l IH]; intro b; cbn [from_le app length].
  - change (256 ^ N.of_nat 0)%N with 1%N. lia.
  - rewrite Nat2N.inj_succ, N.pow_succ_r'. specialize (IH b). lia.
Qed.
Lemma last_byte : forall c : char, (0x80 <= c)%N -> exists l b, bytes [c] = l ++ [b] /\ (0x80 <= b)%N.
Proof.
  intros c H. cbn [bytes flat_map]. rewrite app_nil_r. unfold encode_utf8. destruct (c <? 0x80)%N eqn:A; [apply N.ltb_lt in A; lia|].
  assert (L : forall n, (0x80 <= 0x80 + n)%N) by (intro; lia).
  destruct (c <? 0x800)%N; [|destruct (c <? 0x10000)%N].
  - eexists [_], _. split; [reflexivity|apply L].
  - eexists [_; _], _. split; [reflexivity|apply L].
  - eexists [_; _; _], _. split; [reflexivity|apply L].
Qed.
Lemma wide_none : forall lo hi c : char, ~ (lo < 0x80 /\ hi < 0x80)%N -> (hi <= 0x10FFFF)%N -> ~ takes lo hi (bytes [c]).
Proof.
  intros lo hi c W V [(A & _)|(_ & L & n & N & R)]; [contradiction|]. apply number_le in N. subst n.
  assert (Hi : (0x80 <= hi)%N) by lia.
  assert (Lc : 2 <= length (bytes [c])).
  { rewrite L. assert (len_utf8 hi <> 1) by (intro X; apply one_byte in X; lia).
    assert (0 < len_utf8 hi) by (unfold len_utf8; repeat match goal with |- context [if ?t then _ else _] => destruct t end; lia). lia. }
  assert (C : (0x80 <= c)%N).
  { apply N.le_ngt. intro X. cbn [bytes flat_map] in Lc. rewrite app_nil_r in Lc. unfold encode_utf8 in Lc. rewrite (proj2 (N.ltb_lt _ _) X) in Lc. cbn in Lc. lia. }
  destruct (last_byte c C) as (l & b & E & B). rewrite E in R, L, Lc. assert (P := last_le l b). rewrite app_length in L. cbn [length] in L.
  assert (Ll : len_utf8 hi <= length l + 1) by lia.
  assert (Q : (0x80 * 256 ^ N.of_nat (length l) <= hi)%N).
  { eapply N.le_trans; [apply N.mul_le_mono_r; exact B|]. eapply N.le_trans; [exact P|apply R]. }
  assert (M : (0x80 * 256 ^ N.of_nat (len_utf8 hi - 1) <= 0x80 * 256 ^ N.of_nat (length l))%N) by (apply N.mul_le_mono_l, N.pow_le_mono_r; lia).
  assert (K : (hi < 0x80 * 256 ^ N.of_nat (len_utf8 hi - 1))%N).
  { unfold len_utf8. destruct (hi <? 0x80)%N eqn:D1; [apply N.ltb_lt in D1; lia|]. destruct (hi <? 0x800)%N eqn:D2.
    - apply N.ltb_lt in D2. change (hi < 0x8000)%N. lia.
    - destruct (hi <? 0x10000)%N eqn:D3; [apply N.ltb_lt in D3; change (hi < 0x800000)%N; lia|]. change (hi < 0x80000000)%N. lia. }
  apply (N.lt_irrefl hi). eapply N.lt_le_trans; [exact K|]. eapply N.le_trans; [exact M|exact Q].
Qed.

Lemma takes_det : forall lo hi m l m' l', m ++ l = m' ++ l' -> takes lo hi m -> takes lo hi m' -> l = l'.
Proof.
  intros lo hi m l m' l' E T T'. assert (Le : length m = length m').
  { destruct T as [(P & u & -> & _)|(P & L & _)], T' as [(P' & u' & -> & _)|(P' & L' & _)]; try contradiction; [reflexivity|congruence]. }
  apply (f_equal (skipn (length m))) in E. rewrite skipn_app, skipn_all, Nat.sub_diag in E. rewrite Le, skipn_app, skipn_all, Nat.sub_diag in E. exact E.
Qed.
Lemma scans_det : forall e l b k, scans e l b k -> forall b' k', scans e l b' k' -> b = b' /\ k = k'.
Proof.
  intros e l b k H.
  induction H as [lo hi y l T|lo hi l N|x y l k b j H1 IH1 H2 IH2|x y l k H1 IH1|x y l k H1 IH1|x y l k b j H1 IH1 H2 IH2|x l k H1 IH1|x l k b j H1 IH1 H2 IH2];
    intros b' k' H'.
  - remember (y ++ l) as z eqn:Ez. remember (X_range lo hi) as e eqn:Ee.
    destruct H' as [lo' hi' m' l' T'|lo' hi' l' N| | | | | |]; try discriminate Ee; injection Ee as -> ->.
    + split; [reflexivity|]. symmetry. eapply takes_det; eassumption.
    + exfalso. exact (N _ _ Ez T).
  - remember (X_range lo hi) as e eqn:Ee.
    destruct H' as [lo' hi' m' l' T'|lo' hi' l' N'| | | | | |]; try discriminate Ee; injection Ee as -> ->; [exfalso; exact (N _ _ eq_refl T')|auto].
  - inversion H' as [| |? ? ? u ? ? A B|? ? ? ? A| | | |]; subst; [destruct (IH1 _ _ A) as (_ & <-); apply IH2; exact B|destruct (IH1 _ _ A); discriminate].
  - inversion H' as [| |? ? ? u ? ? A B|? ? ? ? A| | | |]; subst; [destruct (IH1 _ _ A); discriminate|apply IH1; exact A].
  - inversion H' as [| | | |? ? ? ? A|? ? ? u ? ? A B| |]; subst; [apply IH1; exact A|destruct (IH1 _ _ A); discriminate].
  - inversion H' as [| | | |? ? ? ? A|? ? ? u ? ? A B| |]; subst; [destruct (IH1 _ _ A); discriminate|destruct (IH1 _ _ A) as (_ & <-); apply IH2; exact B].
  - inversion H' as [| | | | | |? ? ? A|? ? u ? ? A B]; subst; [destruct (IH1 _ _ A); auto|destruct (IH1 _ _ A); discriminate].
  - inversion H' as [| | | | | |? ? ? A|? ? u ? ? A B]; subst; [destruct (IH1 _ _ A); discriminate|destruct (IH1 _ _ A) as (_ & <-); apply IH2; exact B].
Qed.
