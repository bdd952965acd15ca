(** The error message. *)
From Coq Require Import String List NArith ZArith Arith Bool Lia ZifyBool ZifyNat ZifyN Sorted.
From Verif Require Import Model_Text Model_Position Model_Span Model_Stack Model_Tracker Model_Node Model_Pairs
  Model_Message Spec_Text Spec_Peg Spec_Run Spec_Tracker Spec_Yield Spec_Pairs Spec_Message
  Proof_Text Proof_Position Proof_Run Proof_Yield Proof_Pairs Proof_Entry.
Import ListNotations.
Open Scope list_scope.

(** Decimal notation. *)
Lemma value_app : forall a b x,
  fold_left (fun a c => 10 * a + digit_value c)%N (a ++ b) x
  = fold_left (fun a c => 10 * a + digit_value c)%N b (fold_left (fun a c => 10 * a + digit_value c)%N a x).
Proof. intros. apply fold_left_app. Qed.

Lemma digits_spec : forall k n acc, (n < 2 ^ N.of_nat k)%N -> k <> 0 ->
  exists t, digits k n acc = t ++ acc /\ notation t n.
Proof.
  induction k as [|k IH]; intros n acc L K; [congruence|]. cbn [digits].
  assert (D : (48 <= 48 + n mod 10 <= 57)%N) by (pose proof (N.mod_lt n 10); lia).
  assert (V : digit_value (48 + n mod 10)%N = (n mod 10)%N) by (unfold digit_value; lia).
  pose proof (N.div_mod n 10 ltac:(lia)) as DM.
  destruct (N.eqb_spec (n / 10) 0) as [E|E].
  - exists [(48 + n mod 10)%N]. split; [reflexivity|]. split; [constructor; auto|].
    split; [|split; [discriminate|intros r Er; injection Er; auto]].
    unfold value_of_digits. cbn [fold_left]. rewrite V. lia.
  - rewrite Nat2N.inj_succ, N.pow_succ_r' in L.
    assert (K' : k <> 0). { intros ->. cbn in L. assert (n / 10 = 0)%N by (apply N.div_small; lia). lia. }
    destruct (IH (n / 10)%N ((48 + n mod 10)%N :: acc)) as (t & Et & F & Vt & NE & Z); [|exact K'|].
    { apply N.div_lt_upper_bound; lia. }
    exists (t ++ [(48 + n mod 10)%N]). split; [rewrite <- app_assoc; exact Et|].
    split; [apply Forall_app; auto|]. split; [|split].
    + unfold value_of_digits in *. rewrite value_app, Vt. cbn [fold_left]. rewrite V. lia.
    + intro C. apply app_eq_nil in C. destruct C. contradiction.
    + intros r Er. destruct t as [|c t]; [contradiction|]. injection Er as -> Er.
      specialize (Z t eq_refl). subst t. exfalso. apply E. rewrite <- Vt. reflexivity.
Qed.

Lemma decimal_N_spec : forall n, notation (decimal_N n) n.
Proof.
  intro n. unfold decimal_N.
  destruct (digits_spec (S (N.to_nat (N.log2 n))) n []) as (t & E & H); [|discriminate|].
  - rewrite Nat2N.inj_succ, N2Nat.id. destruct (N.eq_dec n 0) as [->|N0]; [reflexivity|].
    apply N.log2_spec. lia.
  - rewrite app_nil_r in E. rewrite E. exact H.
Qed.
Lemma decimal_spec : forall n, notation (decimal n) (N.of_nat n).
Proof. intro n. apply decimal_N_spec. Qed.
Lemma decimal_Z_spec : forall z, signed_notation (decimal_Z z) z.
Proof.
  intro z. unfold decimal_Z, signed_notation. destruct (Z.ltb_spec z 0) as [L|L]; [right|left]; (split; [lia|]).
  - eexists. split; [reflexivity|]. replace (Z.to_N (- z)) with (Z.abs_N z) by lia. apply decimal_N_spec.
  - replace (Z.to_N z) with (Z.abs_N z) by lia. apply decimal_N_spec.
Qed.

(** Notations are unique. *)
Lemma notation_unique : forall t t' n, notation t n -> notation t' n -> t = t'.
Proof.
  intros t. induction t as [|c t IH] using rev_ind; intros t' n (F & V & NE & Z) (F' & V' & NE' & Z'); [contradiction|].
  destruct (exists_last NE') as (u & d & ->).
  apply Forall_app in F. destruct F as (F1 & F2). inversion F2; subst.
  apply Forall_app in F'. destruct F' as (F1' & F2'). inversion F2'; subst.
  unfold value_of_digits in V'. rewrite !value_app in V'. cbn [fold_left] in V'.
  fold (value_of_digits t) in V'. fold (value_of_digits u) in V'. unfold digit_value in V'.
  assert (value_of_digits u = value_of_digits t /\ d = c) as (Ev & ->) by lia.
  assert (P : forall w e, w <> [] -> (forall r, w ++ [e] = 48%N :: r -> r = []) ->
    Forall (fun c => (48 <= c <= 57)%N) w -> value_of_digits w <> 0%N /\ (forall r, w = 48%N :: r -> r = [])).
  { intros w e Nw Zw Fw. destruct w as [|x w]; [contradiction|]. inversion Fw; subst.
    assert (x <> 48)%N. { intros ->. specialize (Zw (w ++ [e]) eq_refl). destruct w; discriminate. }
    split; [|intros r Er; injection Er; intros; congruence].
    unfold value_of_digits. cbn [fold_left].
    assert (G : forall l a, (a > 0)%N -> (fold_left (fun a c => 10 * a + digit_value c)%N l a > 0)%N).
    { induction l as [|y l IHl]; intros a La; cbn [fold_left]; [exact La|]. apply IHl. lia. }
    specialize (G w (10 * 0 + digit_value x)%N). unfold digit_value in *. lia. }
  f_equal. destruct t as [|a t].
  - destruct u as [|b u]; [reflexivity|]. exfalso.
    destruct (P (b :: u) c ltac:(discriminate) Z' F1') as (A & _). apply A. rewrite Ev. reflexivity.
  - destruct u as [|b u].
    + exfalso. destruct (P (a :: t) c ltac:(discriminate) Z F1) as (A & _). apply A. rewrite <- Ev. reflexivity.
    + destruct (P (a :: t) c ltac:(discriminate) Z F1) as (A & B).
      destruct (P (b :: u) c ltac:(discriminate) Z' F1') as (A' & B').
      apply (IH (b :: u) (value_of_digits (a :: t))); repeat split; auto; discriminate.
Qed.

(** Sorting and removing repetitions. *)
Lemma insert_in : forall r l x, In x (insert r l) <-> x = r \/ In x l.
Proof.
  intros r l x. induction l as [|y l IH]; cbn [insert]; [cbn; intuition|].
  destruct (N.leb_spec r y); cbn [In]; [cbn [In]; intuition|]. rewrite IH. cbn [In]. intuition.
Qed.
Lemma insert_sorted : forall r l, StronglySorted N.le l -> StronglySorted N.le (insert r l).
Proof.
  intros r l. induction l as [|y l IH]; intro S; cbn [insert]; [repeat constructor|].
  inversion S as [|? ? S' F]; subst. destruct (N.leb_spec r y) as [L|L].
  - constructor; [exact S|]. constructor; [exact L|]. eapply Forall_impl; [|exact F]. intros. lia.
  - constructor; [apply IH, S'|]. apply Forall_forall. intros x I. apply insert_in in I.
    destruct I as [->|I]; [lia|]. rewrite Forall_forall in F. apply F, I.
Qed.
Lemma sort_spec : forall l, StronglySorted N.le (sort l) /\ forall x, In x (sort l) <-> In x l.
Proof.
  intro l. induction l as [|y l (S & I)]; cbn [sort fold_right]; [split; [constructor|intuition]|].
  split; [apply insert_sorted, S|]. intro x. rewrite insert_in. cbn [In]. rewrite <- (I x). unfold sort. intuition.
Qed.
Lemma dedup_spec : forall l, StronglySorted N.le l ->
  StronglySorted N.lt (dedup l) /\ forall x, In x (dedup l) <-> In x l.
Proof.
  intro l. induction l as [|x l IH]; intro S; cbn [dedup]; [split; [constructor|intuition]|].
  inversion S as [|? ? S' F]; subst. destruct (IH S') as (A & B). destruct l as [|y l].
  - split; [repeat constructor|intuition].
  - destruct (N.eqb_spec x y) as [->|D].
    + split; [exact A|]. intro z. rewrite B. cbn [In]. intuition.
    + split; [|intro z; cbn [In]; rewrite B; cbn [In]; intuition].
      constructor; [exact A|]. apply Forall_forall. intros z I. apply B in I.
      inversion F; subst. inversion S' as [|? ? _ F']; subst. destruct I as [<-|I]; [lia|].
      rewrite Forall_forall in F'. specialize (F' z I). lia.
Qed.
Lemma sorted_lt_nth : forall l, StronglySorted N.lt l ->
  forall i j x y, i < j -> nth_error l i = Some x -> nth_error l j = Some y -> (x < y)%N.
Proof.
  induction 1 as [|z l S IH F]; intros i j x y L E1 E2; [destruct i; discriminate|].
  destruct j as [|j]; [lia|]. destruct i as [|i]; cbn [nth_error] in *.
  - injection E1 as <-. rewrite Forall_forall in F. apply F. eapply nth_error_In; eauto.
  - apply (IH i j); auto. lia.
Qed.
Lemma arranged_dedup_sort : forall l, arranged l (dedup (sort l)).
Proof.
  intro l. destruct (sort_spec l) as (S & I). destruct (dedup_spec _ S) as (D & J). split.
  - intro r. rewrite J. apply I.
  - apply sorted_lt_nth, D.
Qed.

Section Message.
Variable debug : rule -> text.

Lemma collect_rules_spec : forall l, rules_text debug l (collect_rules debug l).
Proof. intro l. eexists. split; [apply listing_comma|reflexivity]. Qed.

Lemma misuse_spec : forall e, misuse_text e (special_text e).
Proof. intros [a [b|]| |]; constructor; apply decimal_Z_spec. Qed.

Lemma write_message_spec : forall u v, exists ls, group_lines debug u v ls /\
  forall spacing, write_message debug spacing (u, v) = flat_map (fun l => spacing ++ l) ls.
Proof.
  intros u ((p, n), x). unfold write_message, group_lines.
  set (p' := dedup (sort p)). set (n' := dedup (sort n)).
  set (h := match p', n' with
            | [], [] => lit "Unknown error (no rule tracked)"
            | _ :: _, [] => lit "Expected " ++ collect_rules debug p'
            | [], _ :: _ => lit "Unexpected " ++ collect_rules debug n'
            | _ :: _, _ :: _ => lit "Unexpected " ++ collect_rules debug n' ++ lit ", expected " ++ collect_rules debug p'
            end).
  eexists. split.
  - exists p', n', h, (map (fun e => special_text e ++ match u with Some r => lit " (By " ++ debug r ++ lit ")" | None => [] end) x).
    split; [apply arranged_dedup_sort|]. split; [apply arranged_dedup_sort|]. split.
    { subst h. destruct p', n'; constructor; try discriminate; apply collect_rules_spec. }
    split; [|reflexivity].
    induction x as [|e x IH]; cbn [map]; constructor; [|exact IH].
    eexists. split; [apply misuse_spec|reflexivity].
  - intro spacing. cbn [flat_map]. fold h. rewrite <- !app_assoc. do 4 f_equal.
    induction x as [|e x IH]; cbn [map flat_map]; [reflexivity|]. rewrite IH, <- !app_assoc. reflexivity.
Qed.

Lemma nth_char_indices : forall y z o,
  nth_error (char_indices_from o (y ++ z)) (length y)
  = match z with c :: _ => Some (o + blen y, c) | [] => None end.
Proof.
  induction y as [|d y IH]; intros z o.
  - cbn [app length blen]. rewrite Nat.add_0_r. destruct z; reflexivity.
  - cbn [app length blen char_indices_from nth_error]. rewrite IH, Nat.add_assoc. reflexivity.
Qed.

Lemma digits_blen : forall t n, notation t n -> blen t = length t.
Proof.
  intros t n (F & _). apply ascii_blen. eapply Forall_impl; [|exact F]. cbn beta. intros. lia.
Qed.

Lemma collect_to_message_spec : forall a b t, tk_position t = blen a ->
  exists msg, collect_to_message debug (a ++ b) t = Ret msg /\ message_for debug a (tk_attempts t) msg.
Proof.
  intros a b t E. unfold collect_to_message, finish. rewrite E.
  destruct (line_col_full a b) as (y & Hy & ->). destruct (line_of_full a b) as (y' & z & Hy' & Hz & E2).
  assert (y' = y) as ->.
  { destruct Hy as (x1 & E1 & L1 & N1), Hy' as (x2 & E3 & L2 & N2). rewrite E1 in E3.
    destruct (last_split_unique _ _ _ _ E3 L1 L2 N1 N2) as (_ & ->). reflexivity. }
  cbn [obind]. rewrite E2. cbn [obind].
  replace (1 + length y - 1) with (length y) by lia. unfold char_indices. rewrite nth_char_indices.
  assert (EX : exists lss, Forall2 (fun g ls => group_lines debug (fst g) (snd g) ls) (tk_attempts t) lss /\
    forall sp, flat_map (write_message debug sp) (tk_attempts t) = flat_map (fun l => sp ++ l) (concat lss)).
  { clear E. induction (tk_attempts t) as [|(u, v) m (lss & F & G)].
    - exists []. split; [constructor|reflexivity].
    - destruct (write_message_spec u v) as (ls' & H2 & H3).
      exists (ls' :: lss). split; [constructor; auto|].
      intro sp. cbn [flat_map concat]. rewrite G, flat_map_app, H3. reflexivity. }
  destruct EX as (lss & F & G).
  assert (EM : get_to (y ++ z) (match match z with c :: _ => Some (0 + blen y, c) | [] => None end with
               | Some (i, _) => i | None => blen (y ++ z) end) = Some y).
  { destruct z as [|c z]; cbn [Nat.add].
    - rewrite app_nil_r. pose proof (get_to_app y []) as A. rewrite app_nil_r in A. exact A.
    - apply get_to_app. }
  cbn [Nat.add] in EM |- *. rewrite EM. cbn [or_panic obind].
  eexists. split; [reflexivity|].
  exists y, (decimal (S (lf_count a))), lss. split; [exact Hy|].
  split; [apply decimal_spec|]. split; [exact F|].
  rewrite (digits_blen _ _ (decimal_spec _)), G. reflexivity.
Qed.

Lemma collect_spec : forall a b t, tk_position t = blen a ->
  exists msg, collect debug (a ++ b) t = Ret (blen a, msg) /\ message_for debug a (tk_attempts t) msg.
Proof.
  intros a b t E. destruct (collect_to_message_spec a b t E) as (msg & E1 & H).
  exists msg. split; [|exact H]. unfold collect, position_new. rewrite E, get_from_app, E1. cbn [obind].
  rewrite get_from_app. reflexivity.
Qed.

Lemma text_error_message : forall addr s env property k n t,
  text_try_parse addr s env property k n = Ret (inr t) \/
  text_try_parse_partial addr s env property k n = Ret (inr t) ->
  exists a b msg, s = a ++ b /\ tk_position t = blen a /\
    collect debug s t = Ret (blen a, msg) /\ message_for debug a (tk_attempts t) msg.
Proof.
  intros addr s env property k n t H.
  assert (B : boundary s (tk_position t)).
  { destruct H as [H|H].
    - destruct (full_error addr s env property k n t H) as [H'|(p & v & tr & _ & _ & _ & _ & B & _)]; [|exact B].
      destruct (partial_report addr s env property k n t H') as (tr & _ & _ & B). exact B.
    - destruct (partial_report addr s env property k n t H) as (tr & _ & _ & B). exact B. }
  destruct B as (a & b & -> & E). destruct (collect_spec a b t E) as (msg & E1 & H1).
  exists a, b, msg. auto.
Qed.

(** A tracker that was left on no boundary. *)
Lemma collect_off_boundary : forall s t, ~ boundary s (tk_position t) ->
  exists num, notation num (N.of_nat (tk_position t)) /\
  collect debug s t = Ret (0, lit "Internal error (invalid character index " ++ num ++ lit ").").
Proof.
  intros s t N. exists (decimal (tk_position t)). split; [apply decimal_spec|].
  unfold collect, position_new. destruct (get_from s (tk_position t)) as [b|] eqn:E; [|reflexivity].
  exfalso. apply N. destruct (get_from_inv _ _ _ E) as (a & -> & E2). exists a, b. auto.
Qed.
End Message.
