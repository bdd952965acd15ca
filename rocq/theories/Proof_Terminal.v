From Coq Require Import List NArith ZArith Arith Bool Lia ZifyBool ZifyNat ZifyN.
From Verif Require Import Model_Text Model_Position Model_Span Model_Stack Model_Tracker Model_Node
  Spec_Text Spec_Peg Spec_Run Spec_Tracker Proof_Text Proof_Position Proof_Span Proof_Tracker.
Import ListNotations.
Open Scope list_scope.

Definition is_terminal (n : node) : bool :=
  match n with
  | Positive _ | Negative _ | Push _ | RepMinMax _ _ _ _ | Opt _ | Seq _ | Choice _ | Rule _ _ => false
  | _ => true
  end.

Lemma Forall2_len : forall (A B : Type) (R : A -> B -> Prop) l l',
  Forall2 R l l' -> length l = length l'.
Proof. intros A B R l l' H. induction H; simpl; congruence. Qed.
Lemma Forall2_rev : forall (A B : Type) (R : A -> B -> Prop) l l',
  Forall2 R l l' -> Forall2 R (rev l) (rev l').
Proof.
  intros A B R l l' H. induction H; simpl; [constructor|].
  apply Forall2_app; auto.
Qed.
Lemma Forall2_firstn : forall (A B : Type) (R : A -> B -> Prop) n l l',
  Forall2 R l l' -> Forall2 R (firstn n l) (firstn n l').
Proof.
  intros A B R n. induction n as [|n IH]; intros l l' H; simpl; [constructor|].
  destruct H; constructor; auto.
Qed.
Lemma Forall2_skipn : forall (A B : Type) (R : A -> B -> Prop) n l l',
  Forall2 R l l' -> Forall2 R (skipn n l) (skipn n l').
Proof.
  intros A B R n. induction n as [|n IH]; intros l l' H; simpl; [exact H|].
  destruct H; [constructor|]. auto.
Qed.
Lemma Forall2_slice : forall (A B : Type) (R : A -> B -> Prop) l l' lo hi,
  Forall2 R l l' -> Forall2 R (slice l lo hi) (slice l' lo hi).
Proof. intros. unfold slice. apply Forall2_firstn, Forall2_skipn, Forall2_rev. assumption. Qed.

Lemma as_str_text : forall sp t, span_text sp t <-> as_str sp = Ret t.
Proof.
  intros [addr s i j] t. unfold span_text, as_str, or_panic. simpl. split.
  - intros (a & b & -> & -> & ->). rewrite get_range_app. reflexivity.
  - destruct (get_range s i j) eqn:E; [|discriminate]. intros H. injection H as ->.
    apply get_range_inv in E. destruct E as (a & c & H1 & H2 & H3). eauto.
Qed.
Lemma span_text_unique : forall sp t t', span_text sp t -> span_text sp t' -> t = t'.
Proof. intros sp t t' H H'. apply as_str_text in H, H'. congruence. Qed.
Lemma texts_unique : forall K Ks Ks',
  Forall2 span_text K Ks -> Forall2 span_text K Ks' -> Ks = Ks'.
Proof.
  intros K Ks Ks' H. revert Ks'. induction H; intros Ks' H'; inversion H'; subst; auto.
  f_equal; eauto using span_text_unique.
Qed.

Lemma constrain_idx_spec : forall i len k,
  constrain_idx i len = Some k <-> stack_index_of len i k.
Proof.
  intros i len k. unfold constrain_idx, stack_index_of.
  destruct (i >? Z.of_nat len)%Z eqn:E1; [split; [discriminate|lia]|].
  destruct (i >=? 0)%Z eqn:E2.
  - split; intros H.
    + injection H as <-. left. lia.
    + f_equal. lia.
  - destruct (i >=? - Z.of_nat len)%Z eqn:E3.
    + split; intros H.
      * injection H as <-. right. lia.
      * f_equal. lia.
    + split; [discriminate|lia].
Qed.
Lemma admissible_spec : forall i len,
  admissible len i = true <-> exists k, stack_index_of len i k.
Proof.
  intros i len. unfold admissible, stack_index_of. split.
  - intros H. destruct (Z_lt_le_dec i 0).
    + exists (Z.to_nat (Z.of_nat len + i)). right. lia.
    + exists (Z.to_nat i). left. lia.
  - intros (k & H). lia.
Qed.
Lemma constrain_idx_none : forall i len, constrain_idx i len = None -> admissible len i = false.
Proof.
  intros i len H. destruct (admissible len i) eqn:E; auto.
  apply admissible_spec in E. destruct E as (k & E). apply constrain_idx_spec in E. congruence.
Qed.
Lemma constrain_idx_some : forall i len k, constrain_idx i len = Some k -> admissible len i = true.
Proof. intros i len k H. apply constrain_idx_spec in H. apply admissible_spec. eauto. Qed.
Lemma stack_index_bound : forall len i k, stack_index_of len i k -> k <= len.
Proof. unfold stack_index_of. lia. Qed.

Lemma stack_pop_loop_all : forall (A : Type) n (K : list A) sv, length K < n ->
  stack_pop_loop n (mkStack K sv) = mkStack [] sv.
Proof.
  intros A n. induction n as [|n IH]; intros K sv H; [lia|].
  destruct K as [|x K]; simpl.
  - reflexivity.
  - apply IH. simpl in H. lia.
Qed.

Section Terminal.
Variable addr : N.
Variable s : text.
Variable env : rule -> rule_def.
Variable property : N -> char -> bool.
Notation chk := (check addr s env property).
Notation prs := (try_parse addr s env property).

Lemma span_between_split : forall pre m post, s = pre ++ m ++ post ->
  span_between addr s (blen pre) (blen (pre ++ m)) = Ret (span_to addr s pre (pre ++ m)).
Proof using Type.
  clear env property. intros pre m post H. unfold span_between, span_to.
  destruct (position_span_same addr s (blen pre) (blen (pre ++ m))) as (A & _).
  - exists pre, (m ++ post). auto.
  - exists (pre ++ m), post. rewrite <- app_assoc. auto.
  - apply A. rewrite blen_app. lia.
Qed.
Lemma span_to_text : forall pre m post, s = pre ++ m ++ post ->
  span_text (span_to addr s pre (pre ++ m)) m.
Proof. intros pre m post H. exists pre, post. auto. Qed.

Lemma match_string_cases : forall t pre post, s = pre ++ post ->
  (exists r, post = t ++ r /\ match_string s (blen pre) t = (true, blen (pre ++ t))) \/
  (~ starts_with t post /\ match_string s (blen pre) t = (false, blen pre)).
Proof.
  intros t pre post ->. destruct (starts_with_dec t post) as [(r & H)|H].
  - left. exists r. split; auto. eapply match_string_true; eauto.
  - right. split; auto. apply match_string_false; auto.
Qed.

Lemma match_spans_spec : forall spans ts pre post, Forall2 span_text spans ts -> s = pre ++ post ->
  (forall r, post = concat ts ++ r ->
     match_spans s (blen pre) spans = Ret (Some (blen (pre ++ concat ts)))) /\
  (~ starts_with (concat ts) post -> match_spans s (blen pre) spans = Ret None).
Proof.
  intros spans ts pre post H. revert pre post. induction H as [|sp t spans ts H1 H2 IH];
    intros pre post Hs; simpl.
  - split; [intros; rewrite app_nil_r; reflexivity|].
    intros N. exfalso. apply N. exists post. reflexivity.
  - apply as_str_text in H1. rewrite H1. simpl.
    destruct (match_string_cases t pre post Hs) as [(r & Hr & ->)|(Hr & ->)].
    + subst post. specialize (IH (pre ++ t) r). rewrite <- app_assoc in IH. specialize (IH Hs).
      destruct IH as (IH1 & IH2). split.
      * intros r' Hr'. rewrite <- app_assoc in Hr'. apply app_inv_head in Hr'.
        rewrite (IH1 r' Hr'). rewrite app_assoc. reflexivity.
      * intros N. apply IH2. intros (r' & ->). apply N. exists r'. rewrite app_assoc. reflexivity.
    + split.
      * intros r ->. exfalso. apply Hr. exists (concat ts ++ r). rewrite <- app_assoc. reflexivity.
      * reflexivity.
Qed.

Lemma peek_spans_spec : forall spans ts pre post st, Forall2 span_text spans ts -> s = pre ++ post ->
  (forall r, post = concat ts ++ r ->
     peek_spans addr s (blen pre) spans st
     = Ret (Some (blen (pre ++ concat ts), span_to addr s pre (pre ++ concat ts)), st)) /\
  (~ starts_with (concat ts) post -> peek_spans addr s (blen pre) spans st = Ret (None, st)).
Proof.
  intros spans ts pre post st H Hs. unfold peek_spans.
  destruct (match_spans_spec spans ts pre post H Hs) as (A & B). split.
  - intros r Hr. rewrite (A r Hr). simpl. rewrite (span_between_split pre (concat ts) r).
    + reflexivity.
    + congruence.
  - intros N. rewrite (B N). reflexivity.
Qed.

Lemma stack_slice_spec : forall pre a b (K : list span) sv t lo hi,
  constrain_idxs a b (length K) = Some (lo, hi) -> hi <= length K ->
  stack_slice (blen pre) a b (mkState (mkStack K sv) t)
  = Ret (Some (slice K lo hi), mkState (mkStack K sv) t).
Proof.
  intros pre a b K sv t lo hi H Hhi. unfold stack_slice, stack_len. simpl. rewrite H.
  destruct (hi <=? lo) eqn:E.
  - unfold slice. replace (hi - lo) with 0 by lia. reflexivity.
  - unfold stack_index. simpl. replace ((lo <=? hi) && (hi <=? length K)) with true by lia.
    reflexivity.
Qed.
Lemma stack_slice_none : forall pre a b (K : list span) sv t,
  constrain_idxs a b (length K) = None ->
  stack_slice (blen pre) a b (mkState (mkStack K sv) t)
  = Ret (None, mkState (mkStack K sv)
      (play [Special (map fst (tk_stack t)) (blen pre) (SliceOutOfBound a b)] t)).
Proof.
  intros pre a b K sv t H. unfold stack_slice, stack_len. simpl. rewrite H.
  unfold on_tracker, out_of_bound. simpl. rewrite report_special_play. reflexivity.
Qed.

(** What both entry points do on a terminal. *)
Definition terminal_outcome (k : nat) (n : node) (pre post : text) (K : list span) (Ks : list text)
  (sv : list (list span)) (t : tracker) : Prop :=
  exists r, terminal property pre post Ks n r /\
  match r with
  | Fail => exists K',
      let st' := mkState (mkStack K' sv)
        (play (map (Special (map fst (tk_stack t)) (blen pre)) (terminal_misuse n K)) t) in
      chk k n (blen pre) (mkState (mkStack K sv) t) = Ret (None, st') /\
      prs k n (blen pre) (mkState (mkStack K sv) t) = Ret (None, st')
  | Ok pre' post' Ks' => exists m,
      pre' = pre ++ m /\ post = m ++ post' /\ Forall2 span_text (terminal_stack n K) Ks' /\
      let st' := mkState (mkStack (terminal_stack n K) sv) t in
      chk k n (blen pre) (mkState (mkStack K sv) t) = Ret (Some (blen pre'), st') /\
      prs k n (blen pre) (mkState (mkStack K sv) t)
      = Ret (Some (blen pre', terminal_value addr s n pre m K), st')
  end.

Lemma outcome_ok : forall k n pre post K Ks sv t m post' Ks',
  terminal property pre post Ks n (Ok (pre ++ m) post' Ks') -> post = m ++ post' ->
  Forall2 span_text (terminal_stack n K) Ks' ->
  chk k n (blen pre) (mkState (mkStack K sv) t)
    = Ret (Some (blen (pre ++ m)), mkState (mkStack (terminal_stack n K) sv) t) ->
  prs k n (blen pre) (mkState (mkStack K sv) t)
    = Ret (Some (blen (pre ++ m), terminal_value addr s n pre m K),
           mkState (mkStack (terminal_stack n K) sv) t) ->
  terminal_outcome k n pre post K Ks sv t.
Proof. intros. exists (Ok (pre ++ m) post' Ks'). split; auto. exists m. auto 6. Qed.
Lemma outcome_fail : forall k n pre post K Ks sv t K',
  terminal property pre post Ks n Fail ->
  (let st' := mkState (mkStack K' sv)
     (play (map (Special (map fst (tk_stack t)) (blen pre)) (terminal_misuse n K)) t) in
   chk k n (blen pre) (mkState (mkStack K sv) t) = Ret (None, st') /\
   prs k n (blen pre) (mkState (mkStack K sv) t) = Ret (None, st')) ->
  terminal_outcome k n pre post K Ks sv t.
Proof. intros. exists Fail. split; auto. exists K'. auto. Qed.

Lemma one_char_cases : forall (P : char -> Prop) (f : char -> bool) pre post (Ks : list text),
  (forall c, f c = true <-> P c) ->
  (exists c r, post = c :: r /\ f c = true /\ one_char P pre post Ks (Ok (pre ++ [c]) r Ks)) \/
  ((post = [] \/ exists c r, post = c :: r /\ f c = false) /\ one_char P pre post Ks Fail).
Proof.
  intros P f pre post Ks H. destruct post as [|c r].
  - right. split; auto. constructor. intros; discriminate.
  - destruct (f c) eqn:E.
    + left. exists c, r. split; auto. split; auto. econstructor; [reflexivity|]. apply H. auto.
    + right. split; eauto. constructor. intros c' r' H' HP. apply H in HP. injection H' as <- <-.
      congruence.
Qed.

Lemma terminal_step : forall k n pre post K Ks sv t,
  is_terminal n = true -> s = pre ++ post -> Forall2 span_text K Ks ->
  (n = PopAll /\ k = 0 /\
   chk (S k) n (blen pre) (mkState (mkStack K sv) t) = OutOfFuel /\
   prs (S k) n (blen pre) (mkState (mkStack K sv) t) = OutOfFuel) \/
  terminal_outcome (S k) n pre post K Ks sv t.
Proof.
  intros k n pre post K Ks sv t Hn Hs HK.
  destruct n; try discriminate Hn; clear Hn.
  - (* Str *)
    right. destruct (match_string_cases content pre post Hs) as [(r & Hr & E)|(Hr & E)].
    + eapply outcome_ok with (m := content) (post' := r) (Ks' := Ks); auto.
      * constructor. constructor. exact Hr.
      * simpl. rewrite E. reflexivity.
      * simpl. rewrite E. reflexivity.
    + apply outcome_fail with (K' := K).
      * constructor. constructor. exact Hr.
      * simpl. rewrite E, play_nil. split; reflexivity.
  - (* Insens *)
    right.
    assert (D : (exists m r, post = m ++ r /\ map ascii_fold m = map ascii_fold content) \/
                ~ (exists m r, post = m ++ r /\ map ascii_fold m = map ascii_fold content)).
    { destruct (list_eq_dec N.eq_dec (map ascii_fold (firstn (length content) post))
        (map ascii_fold content)) as [E|E].
      - left. exists (firstn (length content) post), (skipn (length content) post).
        rewrite firstn_skipn. auto.
      - right. intros (m & r & -> & H). apply E.
        assert (L : length m = length content).
        { apply (f_equal (@length char)) in H. rewrite !map_length in H. exact H. }
        rewrite <- L, firstn_app, Nat.sub_diag, firstn_all. simpl. rewrite app_nil_r. exact H. }
    destruct D as [(m & r & Hr & HF)|D].
    + assert (E : match_insensitive s (blen pre) content = Ret (true, blen (pre ++ m))).
      { rewrite Hs. eapply match_insensitive_true; eauto. }
      eapply outcome_ok with (m := m) (post' := r) (Ks' := Ks); auto.
      * econstructor; eauto.
      * simpl. rewrite E. reflexivity.
      * simpl. rewrite E. simpl. subst post. rewrite (span_between_split pre m r Hs). simpl.
        pose proof (span_to_text pre m r Hs) as T. apply as_str_text in T. rewrite T. reflexivity.
    + assert (E : match_insensitive s (blen pre) content = Ret (false, blen pre)).
      { rewrite Hs. apply match_insensitive_false. exact D. }
      apply outcome_fail with (K' := K).
      * constructor. intros m r H1 H2. apply D. eauto.
      * simpl. rewrite E, play_nil. split; reflexivity.
  - (* SkipChar *)
    right. destruct (le_lt_dec n (length post)) as [L|L].
    + assert (P1 : post = firstn n post ++ skipn n post) by (symmetry; apply firstn_skipn).
      assert (P2 : length (firstn n post) = n) by (rewrite firstn_length; lia).
      assert (E : skip s (blen pre) n = Ret (true, blen (pre ++ firstn n post))).
      { rewrite Hs. destruct (skip_full pre post n) as (A & _). eapply A; eauto. }
      eapply outcome_ok with (m := firstn n post) (post' := skipn n post) (Ks' := Ks); auto.
      * econstructor; eauto.
      * simpl. rewrite E. reflexivity.
      * simpl. rewrite E. simpl. rewrite (span_between_split pre (firstn n post) (skipn n post)).
        -- reflexivity.
        -- rewrite firstn_skipn. exact Hs.
    + assert (E : skip s (blen pre) n = Ret (false, blen pre)).
      { rewrite Hs. destruct (skip_full pre post n) as (_ & A). auto. }
      apply outcome_fail with (K' := K).
      * constructor. exact L.
      * simpl. rewrite E, play_nil. split; reflexivity.
  - (* CharRange *)
    right.
    destruct (one_char_cases (fun c => (lo <= c <= hi)%N) (fun c => (lo <=? c) && (c <=? hi))%N
      pre post Ks) as [(c & r & -> & E & O)|(D & O)].
    + intros c. rewrite andb_true_iff, !N.leb_le. tauto.
    + eapply outcome_ok with (m := [c]) (post' := r) (Ks' := Ks); auto.
      * constructor. exact O.
      * simpl. rewrite Hs, match_range_cons, E. reflexivity.
      * simpl. rewrite Hs at 1. rewrite match_range_cons, E. simpl.
        rewrite (span_between_split pre [c] r Hs). simpl.
        pose proof (span_to_text pre [c] r Hs) as T. apply as_str_text in T. rewrite T. reflexivity.
    + apply outcome_fail with (K' := K).
      * constructor. exact O.
      * simpl. rewrite play_nil. destruct D as [->|(c & r & -> & E)].
        -- rewrite app_nil_r in Hs. rewrite Hs, match_range_nil. split; reflexivity.
        -- rewrite Hs, match_range_cons, E. split; reflexivity.
  - (* Char *)
    right. destruct (match_string_cases [c] pre post Hs) as [(r & Hr & E)|(Hr & E)].
    + eapply outcome_ok with (m := [c]) (post' := r) (Ks' := Ks); auto.
      * constructor. econstructor; eauto.
      * simpl. rewrite E. reflexivity.
      * simpl. rewrite E. reflexivity.
    + apply outcome_fail with (K' := K).
      * constructor. constructor. intros c' r H ->. apply Hr. exists r. exact H.
      * simpl. rewrite E, play_nil. split; reflexivity.
  - (* Any *)
    right.
    destruct (one_char_cases (fun c => True) (fun c => true) pre post Ks)
      as [(c & r & -> & E & O)|(D & O)].
    + tauto.
    + eapply outcome_ok with (m := [c]) (post' := r) (Ks' := Ks); auto.
      * constructor. exact O.
      * simpl. rewrite Hs, match_char_by_cons. reflexivity.
      * simpl. rewrite Hs, next_char_cons. reflexivity.
    + apply outcome_fail with (K' := K).
      * constructor. exact O.
      * simpl. rewrite play_nil. destruct D as [->|(c & r & -> & E)]; [|discriminate].
        rewrite app_nil_r in Hs. rewrite Hs, match_char_by_nil, next_char_nil. split; reflexivity.
  - (* NONE *)
    right. apply outcome_fail with (K' := K).
    + constructor.
    + simpl. rewrite play_nil. split; reflexivity.
  - (* Empty *)
    right. eapply outcome_ok with (m := []) (post' := post) (Ks' := Ks); auto.
    + rewrite app_nil_r. constructor.
    + simpl. rewrite app_nil_r. reflexivity.
    + simpl. rewrite app_nil_r. reflexivity.
  - (* Soi *)
    right. destruct pre as [|c pre].
    + eapply outcome_ok with (m := []) (post' := post) (Ks' := Ks); auto.
      constructor. reflexivity.
    + apply outcome_fail with (K' := K).
      * constructor. discriminate.
      * assert (E : at_start (blen (c :: pre)) = false).
        { unfold at_start. simpl. pose proof (len_utf8_pos c). lia. }
        simpl terminal_misuse. cbn [map]. rewrite play_nil.
        cbn [check try_parse]. rewrite E. split; reflexivity.
  - (* Eoi *)
    right. destruct post as [|c post].
    + assert (E : at_end s (blen pre) = true).
      { unfold at_end. rewrite Hs, app_nil_r. lia. }
      eapply outcome_ok with (m := []) (post' := []) (Ks' := Ks); auto.
      * rewrite app_nil_r. constructor. reflexivity.
      * cbn [check]. rewrite E, app_nil_r. reflexivity.
      * cbn [try_parse]. rewrite E, app_nil_r. reflexivity.
    + assert (E : at_end s (blen pre) = false).
      { unfold at_end. rewrite Hs, blen_app. simpl. pose proof (len_utf8_pos c). lia. }
      apply outcome_fail with (K' := K).
      * constructor. discriminate.
      * simpl terminal_misuse. cbn [map]. rewrite play_nil. cbn [check try_parse]. rewrite E.
        split; reflexivity.
  - (* Newline *)
    right.
    destruct (match_string_cases [CR; LF] pre post Hs) as [(r & Hr & E)|(N1 & E1)].
    { eapply outcome_ok with (m := [CR; LF]) (post' := r) (Ks' := Ks); auto.
      - constructor. exact Hr.
      - simpl. rewrite E. reflexivity.
      - cbn [try_parse]. rewrite E. reflexivity. }
    destruct (match_string_cases [LF] pre post Hs) as [(r & Hr & E)|(N2 & E2)].
    { eapply outcome_ok with (m := [LF]) (post' := r) (Ks' := Ks); auto.
      - constructor. exact Hr.
      - simpl. rewrite E1, E. reflexivity.
      - cbn [try_parse]. rewrite E1, E. reflexivity. }
    destruct (match_string_cases [CR] pre post Hs) as [(r & Hr & E)|(N3 & E3)].
    { eapply outcome_ok with (m := [CR]) (post' := r) (Ks' := Ks); auto.
      - constructor; [exact Hr|]. intros (r' & ->). apply N1. exists r'. exact Hr.
      - simpl. rewrite E1, E2, E. reflexivity.
      - cbn [try_parse]. rewrite E1, E2, E. reflexivity. }
    apply outcome_fail with (K' := K).
    + constructor; assumption.
    + simpl terminal_misuse. cbn [map]. rewrite play_nil. cbn [check try_parse].
      rewrite E1, E2, E3. split; reflexivity.
  - (* PeekAll *)
    right.
    assert (I : stack_index (mkStack K sv) 0 (stack_len (mkStack K sv)) = Ret (rev K)).
    { unfold stack_index, stack_len. simpl. rewrite Nat.leb_refl, Nat.sub_0_r.
      rewrite <- rev_length, firstn_all. reflexivity. }
    destruct (peek_spans_spec K Ks pre post (mkState (mkStack K sv) t) HK Hs) as (A & B).
    destruct (starts_with_dec (concat Ks) post) as [(r & Hr)|Hr].
    + eapply outcome_ok with (m := concat Ks) (post' := r) (Ks' := Ks); auto.
      * constructor. constructor. exact Hr.
      * cbn [check st_stack]. rewrite I. cbn [obind]. rewrite rev_involutive, (A r Hr). reflexivity.
      * cbn [try_parse st_stack]. rewrite I. cbn [obind]. rewrite rev_involutive, (A r Hr). reflexivity.
    + apply outcome_fail with (K' := K).
      * constructor. constructor. exact Hr.
      * simpl terminal_misuse. cbn [map]. rewrite play_nil. cbn [check try_parse st_stack].
        rewrite I. cbn [obind]. rewrite rev_involutive, (B Hr). split; reflexivity.
  - (* Peek *)
    right. destruct HK as [|sp x K Ks H1 H2].
    + apply outcome_fail with (K' := []).
      * apply T_peek_empty. reflexivity.
      * simpl. unfold on_tracker, empty_stack. simpl. rewrite report_special_play. split; reflexivity.
    + pose proof H1 as H1'. apply as_str_text in H1'.
      destruct (match_string_cases x pre post Hs) as [(r & Hr & E)|(Hr & E)].
      * eapply outcome_ok with (m := x) (post' := r) (Ks' := x :: Ks); auto.
        -- econstructor; [reflexivity|]. constructor. exact Hr.
        -- simpl. constructor; auto.
        -- simpl. rewrite H1'. simpl. rewrite E. reflexivity.
        -- simpl. rewrite H1'. simpl. rewrite E. subst post. rewrite (span_between_split pre x r Hs).
           reflexivity.
      * apply outcome_fail with (K' := sp :: K).
        -- econstructor; [reflexivity|]. constructor. exact Hr.
        -- simpl. rewrite H1'. simpl. rewrite E, play_nil. split; reflexivity.
  - (* Drop *)
    right. destruct HK as [|sp x K Ks H1 H2].
    + apply outcome_fail with (K' := []).
      * apply T_drop_empty. reflexivity.
      * simpl. unfold on_tracker, empty_stack. simpl. rewrite report_special_play. split; reflexivity.
    + eapply outcome_ok with (m := []) (post' := post) (Ks' := Ks); auto.
      * rewrite app_nil_r. econstructor. reflexivity.
      * simpl. rewrite app_nil_r. reflexivity.
      * simpl. rewrite app_nil_r. reflexivity.
  - (* Pop *)
    right. destruct HK as [|sp x K Ks H1 H2].
    + apply outcome_fail with (K' := []).
      * apply T_pop_empty. reflexivity.
      * simpl. unfold on_tracker, empty_stack. simpl. rewrite report_special_play. split; reflexivity.
    + pose proof H1 as H1'. apply as_str_text in H1'.
      destruct (match_string_cases x pre post Hs) as [(r & Hr & E)|(Hr & E)].
      * eapply outcome_ok with (m := x) (post' := r) (Ks' := Ks); auto.
        -- econstructor; [reflexivity|]. constructor. exact Hr.
        -- simpl. rewrite H1'. simpl. rewrite E. reflexivity.
        -- simpl. rewrite H1'. simpl. rewrite E. reflexivity.
      * apply outcome_fail with (K' := K).
        -- econstructor; [reflexivity|]. constructor. exact Hr.
        -- simpl. rewrite H1'. simpl. rewrite E, play_nil. split; reflexivity.
  - (* PopAll *)
    destruct k as [|k]; [left; repeat split; reflexivity|right].
    assert (I : stack_index (mkStack K sv) 0 (stack_len (mkStack K sv)) = Ret (rev K)).
    { unfold stack_index, stack_len. simpl. rewrite Nat.leb_refl, Nat.sub_0_r.
      rewrite <- rev_length, firstn_all. reflexivity. }
    destruct (peek_spans_spec K Ks pre post (mkState (mkStack K sv) t) HK Hs) as (A & B).
    assert (PL : on_stack (fun stk => stack_pop_loop (S (stack_len stk)) stk) (mkState (mkStack K sv) t)
                 = mkState (mkStack [] sv) t).
    { unfold on_stack. cbn [st_stack st_tracker]. rewrite stack_pop_loop_all; [reflexivity|].
      unfold stack_len. simpl. lia. }
    destruct (starts_with_dec (concat Ks) post) as [(r & Hr)|Hr].
    + eapply outcome_ok with (m := concat Ks) (post' := r) (Ks' := []); auto.
      * constructor. constructor. exact Hr.
      * constructor.
      * cbn [check st_stack]. rewrite I. cbn [obind]. rewrite rev_involutive, (A r Hr).
        cbn [bind fst snd]. rewrite PL. reflexivity.
      * cbn [try_parse st_stack]. rewrite I. cbn [obind]. rewrite rev_involutive, (A r Hr).
        cbn [bind fst snd]. rewrite PL. reflexivity.
    + apply outcome_fail with (K' := K).
      * constructor. constructor. exact Hr.
      * simpl terminal_misuse. cbn [map]. rewrite play_nil. cbn [check try_parse st_stack].
        rewrite I. cbn [obind]. rewrite rev_involutive, (B Hr). split; reflexivity.
  - (* PeekSlice2 *)
    right. pose proof (Forall2_len _ _ _ _ _ HK) as LK.
    destruct (constrain_idx start (length K)) as [lo|] eqn:E1;
      [destruct (constrain_idx stop (length K)) as [hi|] eqn:E2|].
    + assert (C : constrain_idxs start (Some stop) (length K) = Some (lo, hi)).
      { unfold constrain_idxs. rewrite E1, E2. reflexivity. }
      pose proof (proj1 (constrain_idx_spec _ _ _) E1) as S1.
      pose proof (proj1 (constrain_idx_spec _ _ _) E2) as S2.
      pose proof (stack_index_bound _ _ _ S2) as B2.
      pose proof (stack_slice_spec pre start (Some stop) K sv t lo hi C B2) as SL.
      destruct (peek_spans_spec (slice K lo hi) (slice Ks lo hi) pre post (mkState (mkStack K sv) t)
        (Forall2_slice _ _ _ _ _ lo hi HK) Hs) as (A & B).
      rewrite LK in S1, S2.
      destruct (starts_with_dec (concat (slice Ks lo hi)) post) as [(r & Hr)|Hr].
      * eapply outcome_ok with (m := concat (slice Ks lo hi)) (post' := r) (Ks' := Ks); auto.
        -- econstructor; eauto. constructor. exact Hr.
        -- cbn [check]. rewrite SL. cbn [bind]. rewrite (A r Hr). reflexivity.
        -- cbn [try_parse]. rewrite SL. cbn [bind]. rewrite (A r Hr). reflexivity.
      * apply outcome_fail with (K' := K).
        -- econstructor; eauto. constructor. exact Hr.
        -- simpl terminal_misuse. rewrite (constrain_idx_some _ _ _ E1), (constrain_idx_some _ _ _ E2).
           cbn [andb map]. rewrite play_nil. cbn [check try_parse]. rewrite SL. cbn [bind].
           rewrite (B Hr). split; reflexivity.
    + assert (C : constrain_idxs start (Some stop) (length K) = None).
      { unfold constrain_idxs. rewrite E1, E2. reflexivity. }
      pose proof (stack_slice_none pre start (Some stop) K sv t C) as SL.
      apply outcome_fail with (K' := K).
      * apply T_slice2_fail. intros (lo' & hi' & _ & H). rewrite <- LK in H.
        apply constrain_idx_spec in H. congruence.
      * simpl terminal_misuse. rewrite (constrain_idx_none _ _ E2), andb_false_r. cbn [map].
        cbn [check try_parse]. rewrite SL. split; reflexivity.
    + assert (C : constrain_idxs start (Some stop) (length K) = None).
      { unfold constrain_idxs. rewrite E1. reflexivity. }
      pose proof (stack_slice_none pre start (Some stop) K sv t C) as SL.
      apply outcome_fail with (K' := K).
      * apply T_slice2_fail. intros (lo' & hi' & H & _). rewrite <- LK in H.
        apply constrain_idx_spec in H. congruence.
      * simpl terminal_misuse. rewrite (constrain_idx_none _ _ E1). cbn [andb map].
        cbn [check try_parse]. rewrite SL. split; reflexivity.
  - (* PeekSlice1 *)
    right. pose proof (Forall2_len _ _ _ _ _ HK) as LK.
    destruct (constrain_idx start (length K)) as [lo|] eqn:E1.
    + assert (C : constrain_idxs start None (length K) = Some (lo, length K)).
      { unfold constrain_idxs. rewrite E1. reflexivity. }
      pose proof (proj1 (constrain_idx_spec _ _ _) E1) as S1.
      pose proof (stack_slice_spec pre start None K sv t lo _ C (Nat.le_refl _)) as SL.
      rewrite LK in S1, SL.
      destruct (peek_spans_spec (slice K lo (length Ks)) (slice Ks lo (length Ks)) pre post
        (mkState (mkStack K sv) t) (Forall2_slice _ _ _ _ _ lo (length Ks) HK) Hs) as (A & B).
      destruct (starts_with_dec (concat (slice Ks lo (length Ks))) post) as [(r & Hr)|Hr].
      * eapply outcome_ok with (m := concat (slice Ks lo (length Ks))) (post' := r) (Ks' := Ks); auto.
        -- econstructor; eauto. constructor. exact Hr.
        -- cbn [check]. rewrite SL. cbn [bind]. rewrite (A r Hr). reflexivity.
        -- cbn [try_parse]. rewrite SL. cbn [bind]. rewrite (A r Hr). reflexivity.
      * apply outcome_fail with (K' := K).
        -- econstructor; eauto. constructor. exact Hr.
        -- simpl terminal_misuse. rewrite (constrain_idx_some _ _ _ E1).
           cbn [map]. rewrite play_nil. cbn [check try_parse]. rewrite SL. cbn [bind].
           rewrite (B Hr). split; reflexivity.
    + assert (C : constrain_idxs start None (length K) = None).
      { unfold constrain_idxs. rewrite E1. reflexivity. }
      pose proof (stack_slice_none pre start None K sv t C) as SL.
      apply outcome_fail with (K' := K).
      * apply T_slice1_fail. intros (lo' & H). rewrite <- LK in H.
        apply constrain_idx_spec in H. congruence.
      * simpl terminal_misuse. rewrite (constrain_idx_none _ _ E1). cbn [map].
        cbn [check try_parse]. rewrite SL. split; reflexivity.
  - (* Property *)
    right.
    destruct (one_char_cases (fun c => property p c = true) (property p) pre post Ks)
      as [(c & r & -> & E & O)|(D & O)].
    + tauto.
    + assert (T : template_match_char_by s (blen pre) (property p) = Ret (Some c, blen (pre ++ [c]))).
      { unfold template_match_char_by. rewrite Hs, get_from_app. simpl.
        rewrite match_char_by_cons, E. reflexivity. }
      eapply outcome_ok with (m := [c]) (post' := r) (Ks' := Ks); auto.
      * constructor. exact O.
      * cbn [check]. rewrite T. reflexivity.
      * cbn [try_parse]. rewrite T. reflexivity.
    + assert (T : exists q, template_match_char_by s (blen pre) (property p) = Ret (None, q)).
      { unfold template_match_char_by. destruct D as [->|(c & r & -> & E)].
        - rewrite app_nil_r in Hs. rewrite Hs, match_char_by_nil.
          pose proof (get_from_app pre []) as G. rewrite app_nil_r in G. rewrite G. simpl. eauto.
        - rewrite Hs, get_from_app. simpl. rewrite match_char_by_cons, E. simpl. eauto. }
      destruct T as (q & T). apply outcome_fail with (K' := K).
      * constructor. exact O.
      * simpl terminal_misuse. cbn [map]. rewrite play_nil. cbn [check try_parse]. rewrite T.
        split; reflexivity.
Qed.
End Terminal.
