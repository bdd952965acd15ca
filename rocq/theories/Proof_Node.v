(** Exact outcomes of single expressions, for both entry points. *)
From Coq Require Import List NArith ZArith Arith Bool Lia ZifyBool ZifyNat ZifyN.
From Verif Require Import Model_Text Model_Position Model_Span Model_Stack Model_Tracker Model_Node
  Spec_Text Spec_Peg Spec_Run Spec_Tracker Spec_Yield Proof_Text Proof_Position Proof_Span
  Proof_Tracker Proof_Terminal Proof_Run Proof_Complete Proof_Peg Proof_Fuel Proof_Yield.
Import ListNotations.
Open Scope list_scope.

Section Node.
Variable addr : N.
Variable s : text.
Variable env : rule -> rule_def.
Variable property : N -> char -> bool.
Notation chk := (check addr s env property).
Notation prs := (try_parse addr s env property).
Notation B := (both addr s env property).

(** C02 *)
Lemma literal_node : forall k pre post t st, s = pre ++ post ->
  (forall r, post = t ++ r -> B (S k) (Str t) (blen pre) st (Some (blen (pre ++ t), VUnit)) st) /\
  (~ starts_with t post -> B (S k) (Str t) (blen pre) st None st).
Proof.
  intros k pre post t st Hs. destruct (match_string_cases s t pre post Hs) as [(r & Hr & E)|(Hr & E)]; split.
  - intros r' _. split; simpl; rewrite E; reflexivity.
  - intros C. exfalso. apply C. exists r. exact Hr.
  - intros r H. exfalso. apply Hr. exists r. exact H.
  - intros _. split; simpl; rewrite E; reflexivity.
Qed.
Lemma char_node : forall k pre post c st, s = pre ++ post ->
  (forall r, post = c :: r -> B (S k) (Char c) (blen pre) st (Some (blen (pre ++ [c]), VUnit)) st) /\
  ((forall r, post <> c :: r) -> B (S k) (Char c) (blen pre) st None st).
Proof.
  intros k pre post c st Hs. destruct (match_string_cases s [c] pre post Hs) as [(r & Hr & E)|(Hr & E)]; split.
  - intros r' _. split; simpl; rewrite E; reflexivity.
  - intros C. exfalso. eapply C. exact Hr.
  - intros r H. exfalso. apply Hr. exists r. exact H.
  - intros _. split; simpl; rewrite E; reflexivity.
Qed.
(** C03 *)
Lemma insensitive_node : forall k pre post t st, s = pre ++ post ->
  (forall m r, post = m ++ r -> map ascii_fold m = map ascii_fold t ->
     B (S k) (Insens t) (blen pre) st (Some (blen (pre ++ m), VInsens m)) st) /\
  ((forall m r, post = m ++ r -> map ascii_fold m <> map ascii_fold t) ->
     B (S k) (Insens t) (blen pre) st None st).
Proof.
  intros k pre post t st Hs. split.
  - intros m r -> HF.
    assert (E : match_insensitive s (blen pre) t = Ret (true, blen (pre ++ m)))
      by (rewrite Hs; eapply match_insensitive_true; eauto).
    split; simpl; rewrite E; [|reflexivity]. simpl.
    rewrite (span_between_split addr s pre m r Hs). simpl.
    pose proof (span_to_text addr s pre m r Hs) as T. apply as_str_text in T. rewrite T. reflexivity.
  - intros D.
    assert (E : match_insensitive s (blen pre) t = Ret (false, blen pre)).
    { rewrite Hs. apply match_insensitive_false. intros (m & r & H1 & H2). eapply D; eauto. }
    split; simpl; rewrite E; reflexivity.
Qed.
(** C06 *)
Lemma skip_node : forall k pre post n st, s = pre ++ post ->
  (forall m r, post = m ++ r -> length m = n ->
     B (S k) (SkipChar n) (blen pre) st
       (Some (blen (pre ++ m), VSpan (mkSpan addr s (blen pre) (blen (pre ++ m))))) st) /\
  (length post < n -> B (S k) (SkipChar n) (blen pre) st None st).
Proof.
  intros k pre post n st Hs. split.
  - intros m r -> L. destruct (skip_full pre (m ++ r) n) as (A & _).
    split; simpl; rewrite Hs at 1; rewrite (A m r eq_refl L); [|reflexivity]. simpl.
    rewrite (span_between_split addr s pre m r Hs). reflexivity.
  - intros L. destruct (skip_full pre post n) as (_ & A).
    split; simpl; rewrite Hs, (A L); reflexivity.
Qed.
(** C04 *)
Definition class_node (n : node) (P : char -> Prop) : Prop := forall k pre post st, s = pre ++ post ->
  (forall c r, post = c :: r -> P c ->
     B (S k) n (blen pre) st (Some (blen (pre ++ [c]), VChar c)) st) /\
  ((forall c r, post = c :: r -> ~ P c) -> B (S k) n (blen pre) st None st).

Lemma range_node : forall lo hi, class_node (CharRange lo hi) (fun c => lo <= c <= hi)%N.
Proof.
  intros lo hi k pre post st Hs. split.
  - intros c r -> H.
    assert (E : match_range s (blen pre) lo hi = Ret (true, blen (pre ++ [c]))).
    { rewrite Hs, match_range_cons. replace ((lo <=? c) && (c <=? hi))%N with true by lia. reflexivity. }
    split; simpl; rewrite E; [|reflexivity]. simpl.
    rewrite (span_between_split addr s pre [c] r Hs). simpl.
    pose proof (span_to_text addr s pre [c] r Hs) as T. apply as_str_text in T. rewrite T. reflexivity.
  - intros D.
    assert (E : match_range s (blen pre) lo hi = Ret (false, blen pre)).
    { rewrite Hs. destruct post as [|c r].
      - rewrite app_nil_r. apply match_range_nil.
      - specialize (D c r eq_refl). rewrite match_range_cons.
        replace ((lo <=? c) && (c <=? hi))%N with false by lia. reflexivity. }
    split; simpl; rewrite E; reflexivity.
Qed.
Lemma any_node : class_node Any (fun _ => True).
Proof.
  intros k pre post st Hs. split.
  - intros c r -> _. split; simpl; rewrite Hs, ?next_char_cons, ?match_char_by_cons; reflexivity.
  - intros D. destruct post as [|c r]; [|exfalso; eapply D; eauto]. rewrite app_nil_r in Hs.
    split; simpl; rewrite Hs, ?next_char_nil, ?match_char_by_nil; reflexivity.
Qed.
Lemma property_node : forall p, class_node (Property p) (fun c => property p c = true).
Proof.
  intros p k pre post st Hs.
  assert (E : template_match_char_by s (blen pre) (property p) =
    match post with
    | c :: _ => if property p c then Ret (Some c, blen (pre ++ [c])) else Ret (None, blen pre)
    | [] => Ret (None, blen pre)
    end).
  { unfold template_match_char_by. rewrite Hs, get_from_app. cbn [or_panic obind].
    destruct post as [|c r].
    - rewrite app_nil_r, match_char_by_nil. reflexivity.
    - rewrite match_char_by_cons. destruct (property p c); reflexivity. }
  split.
  - intros c r -> H. rewrite H in E. split; simpl; rewrite E; reflexivity.
  - intros D. assert (E2 : template_match_char_by s (blen pre) (property p) = Ret (None, blen pre)).
    { rewrite E. destruct post as [|c r]; [reflexivity|].
      specialize (D c r eq_refl). destruct (property p c); [exfalso; auto|reflexivity]. }
    split; simpl; rewrite E2; reflexivity.
Qed.

(** Classes that are choices of classes. *)
Definition class_choice (d : nat) (n : node) (P : char -> Prop) : Prop := forall k pre post st,
  s = pre ++ post -> 
  (forall c r, post = c :: r -> P c ->
     exists v, B (d + k) n (blen pre) st (Some (blen (pre ++ [c]), v)) st) /\
  ((forall c r, post = c :: r -> ~ P c) -> B (d + k) n (blen pre) st None st).
Lemma class_single : forall n P, class_node n P -> forall d, class_choice (S d) n P.
Proof. intros n P H d k pre post st Hs. destruct (H (d + k) pre post st Hs) as (A & D). split; eauto. Qed.
Lemma state_snapshot : forall st, on_stack stack_clear_snapshot (on_stack stack_snapshot st) = st.
Proof. intros [[K sv] t]. reflexivity. Qed.
Lemma state_restore : forall st, on_stack stack_restore (on_stack stack_snapshot st) = st.
Proof. intros [[K sv] t]. reflexivity. Qed.
Lemma choice_loop : forall d k pre post st i l, s = pre ++ post ->
  Forall (fun np => class_choice d (fst np) (fun c => snd np c = true)) l ->
  (forall c r, post = c :: r -> existsb (fun np => snd np c) l = true ->
     exists v, parse_choice (prs (d + k)) i (map fst l) (blen pre) st
               = Ret (Some (blen (pre ++ [c]), v), st) /\
               check_choice (chk (d + k)) (map fst l) (blen pre) st
               = Ret (Some (blen (pre ++ [c])), st)) /\
  ((forall c r, post = c :: r -> existsb (fun np => snd np c) l = false) ->
     parse_choice (prs (d + k)) i (map fst l) (blen pre) st = Ret (None, st) /\
     check_choice (chk (d + k)) (map fst l) (blen pre) st = Ret (None, st)).
Proof.
  intros d k pre post st i l Hs H. revert i. induction H as [|[n P] l H _ IH]; intros i.
  - split; [intros c r _ E; discriminate E|]. intros _. split; reflexivity.
  - cbn [map fst parse_choice check_choice].
    destruct (H k pre post (on_stack stack_snapshot st) Hs) as (A & D). cbn [fst snd] in A, D. split.
    + intros c r E H1. cbn [existsb snd] in H1. destruct (P c) eqn:EP.
      * destruct (A c r E EP) as (v & -> & ->). cbn [option_map fst]. rewrite state_snapshot. eauto.
      * destruct D as (-> & ->).
        { intros c' r' E'. assert (c' = c) as -> by congruence. congruence. }
        cbn [option_map]. rewrite state_restore. apply (proj1 (IH (S i)) c r E H1).
    + intros H1. destruct D as (-> & ->).
      { intros c' r' E' EP. specialize (H1 c' r' E'). cbn [existsb snd] in H1. rewrite EP in H1. discriminate H1. }
      cbn [option_map]. rewrite state_restore. apply (proj2 (IH (S i))).
      intros c r E. specialize (H1 c r E). cbn [existsb] in H1. apply orb_false_iff in H1. apply H1.
Qed.
Lemma class_choices : forall d l, Forall (fun np => class_choice d (fst np) (fun c => snd np c = true)) l ->
  class_choice (S d) (Choice (map fst l)) (fun c => existsb (fun np => snd np c) l = true).
Proof.
  intros d l H k pre post st Hs. destruct (choice_loop d k pre post st 0 l Hs H) as (A & D). split.
  - intros c r E HP. destruct (A c r E HP) as (v & E1 & E2). exists v. split; assumption.
  - intros HP. apply D. intros c r E. apply not_true_iff_false. exact (HP c r E).
Qed.
Lemma class_ext : forall d n P Q, (forall c, P c <-> Q c) -> class_choice d n P -> class_choice d n Q.
Proof.
  intros d n P Q H HC k pre post st Hs. destruct (HC k pre post st Hs) as (A & D). split.
  - intros c r E HQ. apply (A c r E). apply H. exact HQ.
  - intros HQ. apply D. intros c r E HP. apply (HQ c r E). apply H. exact HP.
Qed.
Definition in_range (lo hi c : char) : bool := ((lo <=? c) && (c <=? hi))%N.
Lemma range_class : forall d lo hi, class_choice (S d) (CharRange lo hi) (fun c => in_range lo hi c = true).
Proof.
  intros d lo hi. apply class_ext with (P := fun c => (lo <= c <= hi)%N); [unfold in_range; lia|].
  apply class_single, range_node.
Qed.
Lemma ascii_nodes :
  class_choice 1 ascii_digit (fun c => 48 <= c <= 57)%N /\
  class_choice 1 ascii_nonzero_digit (fun c => 49 <= c <= 57)%N /\
  class_choice 1 ascii_bin_digit (fun c => 48 <= c <= 49)%N /\
  class_choice 1 ascii_oct_digit (fun c => 48 <= c <= 55)%N /\
  class_choice 2 ascii_hex_digit (fun c => 48 <= c <= 57 \/ 97 <= c <= 102 \/ 65 <= c <= 70)%N /\
  class_choice 1 ascii_alpha_lower (fun c => 97 <= c <= 122)%N /\
  class_choice 1 ascii_alpha_upper (fun c => 65 <= c <= 90)%N /\
  class_choice 2 ascii_alpha (fun c => 97 <= c <= 122 \/ 65 <= c <= 90)%N /\
  class_choice 3 ascii_alphanumeric (fun c => 97 <= c <= 122 \/ 65 <= c <= 90 \/ 48 <= c <= 57)%N /\
  class_choice 1 ascii (fun c => c <= 127)%N.
Proof.
  repeat match goal with |- _ /\ _ => split end;
    try (apply class_single, range_node).
  - eapply class_ext;
      [|exact (class_choices 1 [(ascii_digit, in_range 48 57); (CharRange 97 102, in_range 97 102);
                               (CharRange 65 70, in_range 65 70)]%N
          ltac:(repeat apply Forall_cons; [..|apply Forall_nil]; cbn [fst snd]; apply (range_class 0)))].
    intros c. cbn [existsb snd]. unfold in_range. lia.
  - eapply class_ext;
      [|exact (class_choices 1 [(ascii_alpha_lower, in_range 97 122); (ascii_alpha_upper, in_range 65 90)]%N
          ltac:(repeat apply Forall_cons; [..|apply Forall_nil]; cbn [fst snd]; apply (range_class 0)))].
    intros c. cbn [existsb snd]. unfold in_range. lia.
  - assert (H : class_choice 2 ascii_alpha (fun c => (in_range 97 122 c || in_range 65 90 c)%N = true)).
    { eapply class_ext;
      [|exact (class_choices 1 [(ascii_alpha_lower, in_range 97 122); (ascii_alpha_upper, in_range 65 90)]%N
          ltac:(repeat apply Forall_cons; [..|apply Forall_nil]; cbn [fst snd]; apply (range_class 0)))].
      intros c. cbn [existsb snd]. unfold in_range. lia. }
    eapply class_ext;
      [|exact (class_choices 2 [(ascii_alpha, fun c => in_range 97 122 c || in_range 65 90 c);
                               (ascii_digit, in_range 48 57)]%N
          ltac:(constructor; [exact H|constructor; [apply (range_class 1)|constructor]]))].
    intros c. cbn [existsb snd]. unfold in_range. lia.
  - apply class_ext with (P := fun c => (0 <= c <= 127)%N); [lia|]. apply class_single, range_node.
Qed.

(** Start and end of input, nothing, always. *)
Lemma anchors_node : forall k pre post st, s = pre ++ post ->
  B (S k) Empty (blen pre) st (Some (blen pre, VUnit)) st /\
  B (S k) NONE (blen pre) st None st /\
  (pre = [] -> B (S k) Soi (blen pre) st (Some (blen pre, VUnit)) st) /\
  (pre <> [] -> B (S k) Soi (blen pre) st None st) /\
  (post = [] -> B (S k) Eoi (blen pre) st (Some (blen pre, VUnit)) st) /\
  (post <> [] -> B (S k) Eoi (blen pre) st None st).
Proof.
  intros k pre post st Hs.
  assert (P : forall (x : text), x <> [] -> 0 < blen x).
  { intros [|c x] H; [congruence|]. cbn [blen]. pose proof (len_utf8_pos c). lia. }
  assert (A : at_start (blen pre) = match pre with [] => true | _ => false end).
  { unfold at_start. destruct pre as [|c pre']; [reflexivity|].
    specialize (P (c :: pre') ltac:(discriminate)). apply Nat.eqb_neq. lia. }
  assert (E : at_end s (blen pre) = match post with [] => true | _ => false end).
  { unfold at_end. rewrite Hs, blen_app. destruct post as [|c post'].
    - cbn [blen]. apply Nat.eqb_eq. lia.
    - specialize (P (c :: post') ltac:(discriminate)). apply Nat.eqb_neq. lia. }
  repeat split; try reflexivity; intros; cbn [check try_parse]; rewrite ?A, ?E;
    (destruct pre; destruct post; try congruence; reflexivity).
Qed.

(** C05 *)
Lemma newline_node : forall k pre post st, s = pre ++ post ->
  (forall r, post = CR :: LF :: r ->
     B (S k) Newline (blen pre) st (Some (blen (pre ++ [CR; LF]), VNewline NL_CRLF)) st) /\
  (forall r, post = LF :: r ->
     B (S k) Newline (blen pre) st (Some (blen (pre ++ [LF]), VNewline NL_LF)) st) /\
  (forall r, post = CR :: r -> (forall r', r <> LF :: r') ->
     B (S k) Newline (blen pre) st (Some (blen (pre ++ [CR]), VNewline NL_CR)) st) /\
  ((forall r, post <> CR :: r) -> (forall r, post <> LF :: r) ->
     B (S k) Newline (blen pre) st None st).
Proof.
  intros k pre post st Hs.
  assert (Y : forall t r, post = t ++ r -> match_string s (blen pre) t = (true, blen (pre ++ t))).
  { intros t r E. destruct (match_string_cases s t pre post Hs) as [(r1 & H1 & E1)|(H1 & E1)]; [exact E1|].
    exfalso. apply H1. exists r. exact E. }
  assert (F : forall t, (forall r, post <> t ++ r) -> match_string s (blen pre) t = (false, blen pre)).
  { intros t D. destruct (match_string_cases s t pre post Hs) as [(r1 & H1 & E1)|(H1 & E1)]; [|exact E1].
    exfalso. eapply D. exact H1. }
  split; [|split; [|split]].
  - intros r E. split; cbn [check try_parse]; rewrite (Y [CR; LF] r E); reflexivity.
  - intros r E. assert (E1 : match_string s (blen pre) [CR; LF] = (false, blen pre)).
    { apply F. intros r' C. rewrite E in C. discriminate C. }
    split; cbn [check try_parse]; rewrite E1, (Y [LF] r E); reflexivity.
  - intros r E D. assert (E1 : match_string s (blen pre) [CR; LF] = (false, blen pre)).
    { apply F. intros r' C. rewrite E in C. injection C as C. eapply D. exact C. }
    assert (E2 : match_string s (blen pre) [LF] = (false, blen pre)).
    { apply F. intros r' C. rewrite E in C. discriminate C. }
    split; cbn [check try_parse]; rewrite E1, E2, (Y [CR] r E); reflexivity.
  - intros D1 D2. assert (E1 : match_string s (blen pre) [CR; LF] = (false, blen pre)).
    { apply F. intros r C. eapply D1. exact C. }
    assert (E2 : match_string s (blen pre) [LF] = (false, blen pre)) by (apply F; exact D2).
    assert (E3 : match_string s (blen pre) [CR] = (false, blen pre)) by (apply F; exact D1).
    split; cbn [check try_parse]; rewrite E1, E2, E3; reflexivity.
Qed.

(** The stack after a failed terminal. *)
Definition failed_stack (n : node) (K : list span) : list span :=
  match n with Pop => tl K | _ => K end.
Lemma peek_spans_none : forall p l st st', peek_spans addr s p l st = Ret (None, st') -> st' = st.
Proof.
  intros p l st st'. unfold peek_spans. destruct (match_spans s p l) as [[q|]| |]; cbn [obind]; try discriminate.
  - destruct (span_between addr s p q); discriminate.
  - congruence.
Qed.
Lemma report_special_stack : forall x p st st', st' = on_tracker (report_special x p) st ->
  st_stack st' = st_stack st.
Proof. intros x p [k t] st' ->. reflexivity. Qed.
Lemma terminal_failed : forall k n p K sv t st', is_terminal n = true ->
  prs k n p (mkState (mkStack K sv) t) = Ret (None, st') ->
  st_stack st' = mkStack (failed_stack n K) sv.
Proof.
  intros k n p K sv t st' Hn H. destruct k as [|k]; [discriminate H|].
  destruct n; try discriminate Hn; cbn [try_parse failed_stack] in *;
    unfold moved_unit, obind, bind, on_tracker in H; cbn [st_stack st_tracker stack_peek stack_pop stk_items stk_saved] in H;
    try discriminate H;
    try (repeat match type of H with
         | context [match ?x with _ => _ end] => destruct x; try discriminate H
         end; injection H as <-; reflexivity).
  - (* PeekAll *)
    destruct (stack_index _ _ _); try discriminate H.
    destruct (peek_spans addr s p (rev a) _) as [[[q|] st2]| |] eqn:E; try discriminate H.
    apply peek_spans_none in E. injection H as <-. subst. reflexivity.
  - (* Drop *)
    destruct K as [|sp K]; unfold stack_pop in H; cbn [stk_items stk_saved] in H;
      [injection H as <-; reflexivity|discriminate H].
  - (* Pop *)
    destruct K as [|sp K]; unfold stack_pop in H; cbn [stk_items stk_saved] in H;
      [injection H as <-; reflexivity|].
    destruct (as_str sp); try discriminate H. destruct (match_string s p a) as [[] ?]; try discriminate H.
    injection H as <-. reflexivity.
  - (* PopAll *)
    destruct k as [|k]; [discriminate H|]. cbn [try_parse] in H. unfold obind, bind in H.
    destruct (stack_index _ _ _); try discriminate H.
    destruct (peek_spans addr s p (rev a) _) as [[[q|] st2]| |] eqn:E; try discriminate H.
    apply peek_spans_none in E. injection H as <-. subst. reflexivity.
  - (* PeekSlice2 *)
    unfold stack_slice, obind in H. cbn [st_stack] in H.
    destruct (constrain_idxs _ _ _) as [[lo hi]|]; [|injection H as <-; reflexivity].
    destruct (hi <=? lo).
    + destruct (peek_spans addr s p [] _) as [[[q|] st2]| |] eqn:E; try discriminate H.
      apply peek_spans_none in E. injection H as <-. subst. reflexivity.
    + destruct (stack_index _ _ _); try discriminate H.
      destruct (peek_spans addr s p a _) as [[[q|] st2]| |] eqn:E; try discriminate H.
      apply peek_spans_none in E. injection H as <-. subst. reflexivity.
  - (* PeekSlice1 *)
    unfold stack_slice, obind in H. cbn [st_stack] in H.
    destruct (constrain_idxs _ _ _) as [[lo hi]|]; [|injection H as <-; reflexivity].
    destruct (hi <=? lo).
    + destruct (peek_spans addr s p [] _) as [[[q|] st2]| |] eqn:E; try discriminate H.
      apply peek_spans_none in E. injection H as <-. subst. reflexivity.
    + destruct (stack_index _ _ _); try discriminate H.
      destruct (peek_spans addr s p a _) as [[[q|] st2]| |] eqn:E; try discriminate H.
      apply peek_spans_none in E. injection H as <-. subst. reflexivity.
Qed.

(** Every terminal, exactly. *)
Lemma terminal_exact : forall k n pre post K Ks sv t r, is_terminal n = true -> s = pre ++ post ->
  Forall2 span_text K Ks -> terminal property pre post Ks n r ->
  let st := mkState (mkStack K sv) t in
  match r with
  | Fail => B (S (S k)) n (blen pre) st None
      (mkState (mkStack (failed_stack n K) sv)
         (play (map (Special (map fst (tk_stack t)) (blen pre)) (terminal_misuse n K)) t))
  | Ok pre' post' Ks' => exists m, pre' = pre ++ m /\ post = m ++ post' /\
      B (S (S k)) n (blen pre) st (Some (blen pre', terminal_value addr s n pre m K))
        (mkState (mkStack (terminal_stack n K) sv) t)
  end.
Proof.
  intros k n pre post K Ks sv t r Hn Hs HK HT st. subst st.
  destruct (terminal_step addr s env property (S k) n pre post K Ks sv t Hn Hs HK)
    as [(_ & C & _)|(r' & HT' & H)]; [discriminate C|].
  assert (r' = r) as -> by (eapply terminal_det; eauto).
  destruct r as [|pre' post' Ks'].
  - destruct H as (K' & H1 & H2).
    pose proof (terminal_failed (S (S k)) n (blen pre) K sv t _ Hn H2) as E. cbn [st_stack] in E.
    injection E as ->. split; [exact H2|exact H1].
  - destruct H as (m & H1 & H2 & _ & H3 & H4). exists m. repeat split; auto.
Qed.

(** C22 *)
Definition texts (K : list span) (Ks : list text) : Prop := Forall2 span_text K Ks.
Lemma peek_node : forall k pre post sp K t sv tk, s = pre ++ post -> span_text sp t ->
  let st := mkState (mkStack (sp :: K) sv) tk in
  (forall r, post = t ++ r -> B (S k) Peek (blen pre) st
     (Some (blen (pre ++ t), VSpan (mkSpan addr s (blen pre) (blen (pre ++ t))))) st) /\
  (~ starts_with t post -> B (S k) Peek (blen pre) st None st).
Proof.
  intros k pre post sp K t sv tk Hs HT st. subst st. apply as_str_text in HT.
  destruct (match_string_cases s t pre post Hs) as [(r & Hr & E)|(Hr & E)]; split.
  - intros r' E'. subst post. split; cbn [try_parse check st_stack stack_peek stk_items];
      rewrite HT; cbn [obind]; rewrite E; [|reflexivity].
    rewrite (span_between_split addr s pre t r Hs). reflexivity.
  - intros C. exfalso. apply C. exists r. exact Hr.
  - intros r H. exfalso. apply Hr. exists r. exact H.
  - intros _. split; cbn [try_parse check st_stack stack_peek stk_items]; rewrite HT; cbn [obind]; rewrite E; reflexivity.
Qed.
Lemma pop_node : forall k pre post sp K t sv tk, s = pre ++ post -> span_text sp t ->
  let st := mkState (mkStack (sp :: K) sv) tk in
  let st' := mkState (mkStack K sv) tk in
  (forall r, post = t ++ r -> B (S k) Pop (blen pre) st (Some (blen (pre ++ t), VSpan sp)) st') /\
  (~ starts_with t post -> B (S k) Pop (blen pre) st None st').
Proof.
  intros k pre post sp K t sv tk Hs HT st st'. subst st st'. apply as_str_text in HT.
  destruct (match_string_cases s t pre post Hs) as [(r & Hr & E)|(Hr & E)]; split.
  - intros r' E'. split; cbn [try_parse check st_stack stack_pop stk_items stk_saved];
      rewrite HT; cbn [obind]; rewrite E; reflexivity.
  - intros C. exfalso. apply C. exists r. exact Hr.
  - intros r H. exfalso. apply Hr. exists r. exact H.
  - intros _. split; cbn [try_parse check st_stack stack_pop stk_items stk_saved]; rewrite HT; cbn [obind]; rewrite E; reflexivity.
Qed.
Lemma drop_node : forall k p sp K sv tk,
  B (S k) Drop p (mkState (mkStack (sp :: K) sv) tk) (Some (p, VUnit)) (mkState (mkStack K sv) tk).
Proof. intros. split; reflexivity. Qed.
Lemma empty_stack_node : forall k n p sv tk, In n [Peek; Pop; Drop] ->
  B (S k) n p (mkState (mkStack [] sv) tk) None
    (mkState (mkStack [] sv) (play [Special (chain_of tk) p EmptyStack] tk)).
Proof.
  intros k n p sv tk [<-|[<-|[<-|[]]]];
    (split; cbn [try_parse check st_stack stack_pop stack_peek stk_items stk_saved option_map];
     unfold on_tracker; cbn [st_tracker st_stack]; unfold empty_stack; rewrite report_special_play; reflexivity).
Qed.
Lemma peek_all_node : forall k pre post K Ks sv tk, s = pre ++ post -> texts K Ks ->
  let st := mkState (mkStack K sv) tk in
  (forall r, post = concat Ks ++ r -> B (S k) PeekAll (blen pre) st
     (Some (blen (pre ++ concat Ks), VSpan (mkSpan addr s (blen pre) (blen (pre ++ concat Ks))))) st) /\
  (~ starts_with (concat Ks) post -> B (S k) PeekAll (blen pre) st None st).
Proof.
  intros k pre post K Ks sv tk Hs HK st. subst st. split.
  - intros r E.
    destruct (terminal_step addr s env property k PeekAll pre post K Ks sv tk eq_refl Hs HK)
      as [(C & _)|(r' & HT & H)]; [discriminate C|].
    assert (r' = Ok (pre ++ concat Ks) r Ks) as ->.
    { eapply terminal_det; [exact HT|]. constructor. constructor. exact E. }
    destruct H as (m & H1 & H2 & _ & H3 & H4). apply app_inv_head in H1. subst m.
    split; assumption.
  - intros E.
    destruct (terminal_step addr s env property k PeekAll pre post K Ks sv tk eq_refl Hs HK)
      as [(C & _)|(r' & HT & H)]; [discriminate C|].
    assert (r' = Fail) as ->.
    { eapply terminal_det; [exact HT|]. constructor. constructor. exact E. }
    destruct H as (K' & H1 & H2). cbn [terminal_misuse map] in *. rewrite play_nil in *.
    pose proof (terminal_failed (S k) PeekAll (blen pre) K sv tk _ eq_refl H2) as F.
    cbn [st_stack failed_stack] in F. injection F as ->. split; assumption.
Qed.
Lemma pop_all_node : forall k pre post K Ks sv tk, s = pre ++ post -> texts K Ks ->
  let st := mkState (mkStack K sv) tk in
  (forall r, post = concat Ks ++ r -> B (S (S k)) PopAll (blen pre) st
     (Some (blen (pre ++ concat Ks), VSpan (mkSpan addr s (blen pre) (blen (pre ++ concat Ks)))))
     (mkState (mkStack [] sv) tk)) /\
  (~ starts_with (concat Ks) post -> B (S (S k)) PopAll (blen pre) st None st).
Proof.
  intros k pre post K Ks sv tk Hs HK st. subst st. split.
  - intros r E.
    destruct (terminal_exact k PopAll pre post K Ks sv tk _ eq_refl Hs HK
      (T_pop_all property pre post Ks _ (OT_ok _ _ _ _ r E))) as (m & H1 & H2 & H3).
    apply app_inv_head in H1. subst m. exact H3.
  - intros E.
    pose proof (terminal_exact k PopAll pre post K Ks sv tk _ eq_refl Hs HK
      (T_pop_all property pre post Ks _ (OT_fail _ _ _ _ E))) as H.
    cbn [terminal_misuse map failed_stack] in H. rewrite play_nil in H. exact H.
Qed.

(** C23 *)
Lemma slice_node : forall k pre post K Ks sv tk a b lo hi, s = pre ++ post -> texts K Ks ->
  stack_index_of (length K) a lo -> match b with
                                    | Some b => stack_index_of (length K) b hi
                                    | None => hi = length K
                                    end ->
  let st := mkState (mkStack K sv) tk in
  let n := match b with Some b => PeekSlice2 a b | None => PeekSlice1 a end in
  let t := concat (slice Ks lo hi) in
  (forall r, post = t ++ r -> B (S k) n (blen pre) st (Some (blen (pre ++ t), VUnit)) st) /\
  (~ starts_with t post -> B (S k) n (blen pre) st None st).
Proof.
  intros k pre post K Ks sv tk a b lo hi Hs HK Ha Hb st n t. subst st n t.
  pose proof (Forall2_len _ _ _ _ _ HK) as L.
  set (n := match b with Some b => PeekSlice2 a b | None => PeekSlice1 a end).
  assert (T : forall r, one_text (concat (slice Ks lo hi)) pre post Ks r -> terminal property pre post Ks n r).
  { intros r H. subst n. rewrite L in *. destruct b as [b|].
    - eapply T_slice2; eauto.
    - subst hi. eapply T_slice1; eauto. }
  assert (Hn : is_terminal n = true) by (subst n; destruct b; reflexivity).
  assert (M : terminal_misuse n K = []).
  { assert (A : forall i j, stack_index_of (length K) i j -> admissible (length K) i = true).
    { intros i j H. unfold stack_index_of, admissible in *. lia. }
    subst n. destruct b as [b|]; simpl; rewrite ?(A _ _ Ha), ?(A _ _ Hb); reflexivity. }
  assert (Ev : n <> PopAll) by (subst n; destruct b; discriminate).
  split.
  - intros r E.
    destruct (terminal_step addr s env property k n pre post K Ks sv tk Hn Hs HK)
      as [(C & _)|(r' & HT & H)]; [congruence|].
    assert (r' = Ok (pre ++ concat (slice Ks lo hi)) r Ks) as ->.
    { eapply terminal_det; [exact HT|]. apply T. constructor. exact E. }
    destruct H as (m & H1 & H2 & _ & H3 & H4). apply app_inv_head in H1. subst m.
    clear -H3 H4. subst n. destruct b; split; assumption.
  - intros E.
    destruct (terminal_step addr s env property k n pre post K Ks sv tk Hn Hs HK)
      as [(C & _)|(r' & HT & H)]; [congruence|].
    assert (r' = Fail) as ->.
    { eapply terminal_det; [exact HT|]. apply T. constructor. exact E. }
    destruct H as (K' & H1 & H2). rewrite M in *. cbn [map] in *. rewrite play_nil in *.
    pose proof (terminal_failed (S k) n (blen pre) K sv tk _ Hn H2) as F.
    cbn [st_stack] in F. injection F as F. assert (K' = K) as ->.
    { rewrite F. subst n. destruct b; reflexivity. }
    split; assumption.
Qed.
Lemma slice_out_of_bound : forall k pre post K Ks sv tk a b, s = pre ++ post -> texts K Ks ->
  (~ (- Z.of_nat (length K) <= a <= Z.of_nat (length K))%Z \/
   exists x, b = Some x /\ ~ (- Z.of_nat (length K) <= x <= Z.of_nat (length K))%Z) ->
  let n := match b with Some b => PeekSlice2 a b | None => PeekSlice1 a end in
  B (S k) n (blen pre) (mkState (mkStack K sv) tk) None
    (mkState (mkStack K sv) (play [Special (chain_of tk) (blen pre) (SliceOutOfBound a b)] tk)).
Proof.
  intros k pre post K Ks sv tk a b Hs HK HO n.
  pose proof (Forall2_len _ _ _ _ _ HK) as L.
  assert (Hn : is_terminal n = true) by (subst n; destruct b; reflexivity).
  assert (M : terminal_misuse n K = [SliceOutOfBound a b]).
  { subst n. unfold terminal_misuse, admissible. destruct b as [b|].
    - match goal with |- (if ?c then _ else _) = _ => replace c with false; [reflexivity|] end.
      destruct HO as [HO|(x & E & HO)]; [lia|]. injection E as <-. lia.
    - match goal with |- (if ?c then _ else _) = _ => replace c with false; [reflexivity|] end.
      destruct HO as [HO|(x & E & HO)]; [lia|]. discriminate E. }
  assert (T : terminal property pre post Ks n Fail).
  { subst n. rewrite L in *. destruct b as [b|].
    - apply T_slice2_fail. intros (lo & hi & H1 & H2). unfold stack_index_of in *.
      destruct HO as [HO|(x & E & HO)]; [lia|]. injection E as <-. lia.
    - apply T_slice1_fail. intros (lo & H1). unfold stack_index_of in *.
      destruct HO as [HO|(x & E & HO)]; [lia|]. discriminate E. }
  destruct (terminal_step addr s env property k n pre post K Ks sv tk Hn Hs HK)
      as [(C & _)|(r' & HT & H)]; [exfalso; subst n; destruct b; discriminate|].
  assert (r' = Fail) as -> by (eapply terminal_det; eauto).
  destruct H as (K' & H1 & H2). rewrite M in *.
  pose proof (terminal_failed (S k) n (blen pre) K sv tk _ Hn H2) as F.
  cbn [st_stack] in F. injection F as F. assert (K' = K) as ->.
  { rewrite F. subst n. destruct b; reflexivity. }
  split; assumption.
Qed.
End Node.
