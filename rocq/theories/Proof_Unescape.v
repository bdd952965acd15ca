(** Proofs about string literals. *)
From Coq Require Import String List NArith ZArith Arith Bool Lia ZifyBool ZifyNat ZifyN.
From Verif Require Import Model_Text Model_Unescape Spec_Unescape Proof_Text.
Import ListNotations.
Open Scope list_scope.

Lemma to_digit_hex : forall c d, to_digit 16 c = Some d <-> hex_digit c d.
Proof.
  intros c d. unfold to_digit, hex_digit.
  destruct ((48 <=? c) && (c <=? 57))%N eqn:A;
  [|destruct ((97 <=? c) && (c <=? 122))%N eqn:B; [|destruct ((65 <=? c) && (c <=? 90))%N eqn:C]];
  try (match goal with |- context [if (?x <? 16)%N then _ else _] => destruct (N.ltb_spec x 16) end);
  (split; [intro Q; try discriminate Q; injection Q as <-; lia|
           intro Q; try (f_equal; lia); exfalso; lia]).
Qed.

Definition hvalue (ds : list N) (acc : N) : N := fold_left (fun a d => 16 * a + d)%N ds acc.
Lemma hvalue_ge : forall ds acc, (acc <= hvalue ds acc)%N.
Proof.
  induction ds as [|d ds IH]; intro acc; [cbn; lia|]. cbn [hvalue fold_left]. fold (hvalue ds (16 * acc + d)).
  specialize (IH (16 * acc + d)%N). lia.
Qed.
Lemma digits_value_spec : forall max t acc n, (acc <= max)%N ->
  (digits_value 16 max t acc = Some n <-> exists ds, Forall2 hex_digit t ds /\ n = hvalue ds acc /\ (n <= max)%N).
Proof.
  intros max. induction t as [|c t IH]; intros acc n L; cbn [digits_value].
  - split.
    + intro H. injection H as <-. exists []. repeat split; [constructor|assumption].
    + intros (ds & F & -> & _). inversion F; subst. reflexivity.
  - destruct (to_digit 16 c) as [d|] eqn:D.
    + apply to_digit_hex in D. replace (acc * 16 + d)%N with (16 * acc + d)%N by lia.
      destruct (N.leb_spec (16 * acc + d) max) as [M|M].
      * rewrite (IH _ _ M). split.
        -- intros (ds & F & E & B). exists (d :: ds). repeat split; [constructor; assumption|exact E|exact B].
        -- intros (ds & F & E & B). inversion F as [|? d' ? ds' Hd F']; subst.
           assert (d' = d) as -> by (apply to_digit_hex in Hd, D; congruence).
           exists ds'. repeat split; assumption.
      * split; [discriminate|]. intros (ds & F & E & B). inversion F as [|? d' ? ds' Hd F']; subst.
        assert (d' = d) as -> by (apply to_digit_hex in Hd, D; congruence).
        pose proof (hvalue_ge ds' (16 * acc + d)). cbn [hvalue fold_left] in B. fold (hvalue ds' (16 * acc + d)) in B. lia.
    + split; [discriminate|]. intros (ds & F & _). inversion F as [|? d' ? ds' Hd F']; subst.
      apply to_digit_hex in Hd. congruence.
Qed.

Lemma hex_iff : forall t n, hex t n <-> t <> [] /\ exists ds, Forall2 hex_digit t ds /\ n = hvalue ds 0.
Proof.
  intros t n. split.
  - induction 1 as [c d H|t n c d H (N & ds & F & ->) Hd].
    + split; [discriminate|]. exists [d]. split; [constructor; [exact H|constructor]|]. cbn [hvalue fold_left]. lia.
    + split; [destruct t; discriminate|]. exists (ds ++ [d]). split; [apply Forall2_app; [exact F|constructor; [exact Hd|constructor]]|].
      unfold hvalue. rewrite fold_left_app. reflexivity.
  - intros (NE & ds & F & E). revert ds n F E. induction t as [|c t IH] using rev_ind; intros ds n F E; [congruence|].
    apply Forall2_app_inv_l in F. destruct F as (ds1 & ds2 & F1 & F2 & ->).
    inversion F2 as [|? d ? ds3 Hd F3]; subst. inversion F3; subst. unfold hvalue. rewrite fold_left_app. cbn [fold_left].
    destruct t as [|c0 t].
    + inversion F1; subst. cbn. replace (match d with 0%N => 0%N | N.pos p => N.pos p end) with d by (destruct d; reflexivity).
      apply Hex_one, Hd.
    + apply Hex_more; [|exact Hd]. apply (IH ltac:(discriminate) ds1); [exact F1|reflexivity].
Qed.
Lemma hvalue_bound : forall t ds, Forall2 hex_digit t ds -> forall acc k, (acc < 16 ^ N.of_nat k)%N ->
  (hvalue ds acc < 16 ^ N.of_nat (k + length t))%N.
Proof.
  intros t ds F. induction F as [|c d t ds H F IH]; intros acc k L; cbn [hvalue fold_left length].
  - rewrite Nat.add_0_r. exact L.
  - fold (hvalue ds (16 * acc + d)). replace (k + S (length t)) with (S k + length t) by lia. apply IH.
    rewrite Nat2N.inj_succ, N.pow_succ_r'. unfold hex_digit in H. lia.
Qed.
Lemma hex_bound : forall t n, hex t n -> (n < 16 ^ N.of_nat (length t))%N.
Proof.
  intros t n H. apply hex_iff in H. destruct H as (_ & ds & F & ->). apply (hvalue_bound t ds F 0 0). reflexivity.
Qed.
Lemma hex_digit_ascii : forall c d, hex_digit c d -> len_utf8 c = 1.
Proof. unfold hex_digit, len_utf8. intros c d H. replace (c <? 128)%N with true by lia. reflexivity. Qed.
Lemma hex_blen : forall t n, hex t n -> blen t = length t.
Proof.
  intros t n H. apply hex_iff in H. destruct H as (_ & ds & F & _). induction F as [|c d t ds H F IH]; [reflexivity|].
  cbn [blen length]. rewrite IH, (hex_digit_ascii _ _ H). reflexivity.
Qed.
Lemma hex_no_plus : forall t n, ~ hex (43%N :: t) n.
Proof. intros t n H. apply hex_iff in H. destruct H as (_ & ds & F & _). inversion F; subst. unfold hex_digit in *. lia. Qed.
Lemma plus_hex_blen : forall t n, plus_hex t n -> blen t = length t.
Proof.
  intros t n [H|(u & -> & H)]; [eapply hex_blen, H|]. cbn [blen length]. rewrite (hex_blen _ _ H). reflexivity.
Qed.
Lemma plus_hex_bound : forall t n, plus_hex t n -> (n < 16 ^ N.of_nat (length t))%N.
Proof.
  intros t n [H|(u & -> & H)]; [apply hex_bound, H|]. pose proof (hex_bound _ _ H). cbn [length].
  rewrite Nat2N.inj_succ, N.pow_succ_r'. lia.
Qed.
Lemma plus_hex_nonempty : forall t n, plus_hex t n -> t <> [].
Proof. intros t n [H|(u & -> & H)]; [apply hex_iff in H; apply H|discriminate]. Qed.
Lemma plus_hex_no_brace : forall t n, plus_hex t n -> Forall (fun c => c <> 125%N) t.
Proof.
  assert (X : forall t n, hex t n -> Forall (fun c => c <> 125%N) t).
  { intros t n H. apply hex_iff in H. destruct H as (_ & ds & F & _). induction F; constructor; [|assumption].
    unfold hex_digit in *. lia. }
  intros t n [H|(u & -> & H)]; [apply (X _ _ H)|]. constructor; [discriminate|apply (X _ _ H)].
Qed.

Lemma from_str_radix_spec : forall max t n, (n <= max)%N ->
  (from_str_radix 16 max t = Some n <-> plus_hex t n).
Proof.
  intros max t n L. assert (X : forall t, t <> [] -> (digits_value 16 max t 0 = Some n <-> hex t n)).
  { intros u NE. rewrite digits_value_spec by lia. rewrite hex_iff. split.
    - intros (ds & F & E & _). split; [exact NE|]. exists ds. auto.
    - intros (_ & ds & F & E). exists ds. auto. }
  destruct t as [|c r]; cbn [from_str_radix].
  - split; [discriminate|]. intro H. apply plus_hex_nonempty in H. congruence.
  - destruct (N.eqb_spec c 43) as [->|NC].
    + destruct r as [|d r].
      * split; [discriminate|]. intros [H|(u & E & H)]; [apply hex_no_plus in H; contradiction|].
        injection E as <-. apply hex_iff in H. destruct H as (H & _). congruence.
      * rewrite X by discriminate. split; [intro H; right; exists (d :: r); auto|].
        intros [H|(u & E & H)]; [apply hex_no_plus in H; contradiction|]. injection E as <-. exact H.
    + rewrite X by discriminate. split; [intro H; left; exact H|]. intros [H|(u & E & H)]; [exact H|congruence].
Qed.
Lemma from_str_radix_le : forall max t n, from_str_radix 16 max t = Some n -> (n <= max)%N.
Proof.
  intros max t n H. destruct t as [|c r]; cbn [from_str_radix] in H; [discriminate|].
  destruct (c =? 43)%N; [destruct r; [discriminate|]|]; apply digits_value_spec in H; try lia;
    destruct H as (ds & _ & _ & L); exact L.
Qed.

Lemma take_while_stop : forall t s, Forall (fun c => c <> 125%N) t ->
  take_while (fun c => negb (c =? 125)%N) (t ++ 125%N :: s) = t.
Proof.
  intros t s F. induction F as [|c t NC F IH]; [reflexivity|]. cbn [app take_while].
  replace (negb (c =? 125)%N) with true by lia. f_equal. exact IH.
Qed.
Lemma take_while_inv : forall s t, take_while (fun c => negb (c =? 125)%N) s = t ->
  s = t \/ exists r, s = t ++ 125%N :: r.
Proof.
  induction s as [|c s IH]; intros t <-; cbn [take_while]; [left; reflexivity|].
  destruct (N.eqb_spec c 125) as [->|NC]; cbn [negb]; [right; exists s; reflexivity|].
  destruct (IH _ eq_refl) as [E|(r & E)]; [left; f_equal; exact E|right; exists r; cbn [app]; f_equal; exact E].
Qed.
Lemma advance_app : forall t s, advance (length t) (t ++ s) = Some s.
Proof. induction t; intro s; [reflexivity|]. cbn. apply IHt. Qed.
Lemma advance_short : forall s n, length s < n -> advance n s = None.
Proof. induction s; intros [|n] L; cbn in *; try lia; [reflexivity|]. apply IHs. lia. Qed.
Lemma advance_length : forall n s r, advance n s = Some r -> length s = n + length r.
Proof.
  induction n; intros [|c s] r H; cbn in *; try discriminate; [injection H as <-; reflexivity..|]. rewrite (IHn _ _ H). reflexivity.
Qed.

Ltac closed_eqb :=
  repeat match goal with |- context [(?a =? ?b)%N] =>
    let v := eval vm_compute in (a =? b)%N in
    match v with true => change (a =? b)%N with true | false => change (a =? b)%N with false end end;
  cbn [negb]; cbv iota.

(** The loop follows [tolerated]. *)
Lemma unescape_complete : forall s r, tolerated s r -> forall fuel res, length s < fuel ->
  unescape_loop fuel s res = Ret (Some (res ++ r)).
Proof.
  induction 1 as [|c s r N1 N2 H IH|s r H IH|e c s r E H IH]; intros [|k] res L; cbn [length] in L; try lia.
  - cbn [unescape_loop]. rewrite app_nil_r. reflexivity.
  - cbn [unescape_loop]. replace (c =? 92)%N with false by lia. replace (c =? 34)%N with false by lia.
    rewrite IH by lia. rewrite <- app_assoc. reflexivity.
  - cbn [unescape_loop]. cbn [N.eqb Pos.eqb]. apply IH. lia.
  - assert (K : unescape_loop k s (res ++ [c]) = Ret (Some (res ++ c :: r)) \/ True) by (right; exact I). clear K.
    rewrite app_length in L.
    destruct E as [e c HL|h1 h2 n HC B|t n HC B SC].
    + assert (K : unescape_loop k s (res ++ [c]) = Ret (Some (res ++ c :: r))).
      { cbn [length] in L. rewrite IH by lia. rewrite <- app_assoc. reflexivity. }
      destruct HL; exact K.
    + assert (K : unescape_loop k s (res ++ [n]) = Ret (Some (res ++ n :: r))).
      { cbn [length] in L. rewrite IH by lia. rewrite <- app_assoc. reflexivity. }
      cbn [app unescape_loop]. cbn [N.eqb Pos.eqb firstn].
      rewrite (plus_hex_blen _ _ HC). cbn [length Nat.eqb negb advance].
      pose proof (proj2 (from_str_radix_spec 255 _ n ltac:(lia)) HC) as ->.
      replace (127 <? n)%N with false by lia. exact K.
    + assert (K : unescape_loop k s (res ++ [n]) = Ret (Some (res ++ n :: r))).
      { rewrite !app_length in L. cbn [length] in L. rewrite IH by lia. rewrite <- app_assoc. reflexivity. }
      rewrite <- !app_assoc. cbn [app unescape_loop]. closed_eqb.
      match goal with |- context [take_while ?f ?l] =>
        replace (take_while f l) with t by (symmetry; exact (take_while_stop t s (plus_hex_no_brace _ _ HC))) end.
      rewrite (plus_hex_blen _ _ HC).
      replace (match t with [] => true | _ => false end) with false by (destruct t; [destruct (plus_hex_nonempty _ _ HC eq_refl)|reflexivity]).
      replace (6 <? length t) with false by lia. cbn [orb].
      match goal with |- context [advance ?n ?l] => replace (advance n l) with (Some s) end.
      2:{ pose proof (advance_app (t ++ [125%N]) s) as AA. rewrite app_length, <- app_assoc in AA. symmetry. exact AA. }
      assert (B2 : (n < 16 ^ 6)%N).
      { pose proof (plus_hex_bound _ _ HC). eapply N.lt_le_trans; [eassumption|]. apply N.pow_le_mono_r; lia. }
      pose proof (proj2 (from_str_radix_spec (2 ^ 32 - 1) _ n ltac:(cbn in *; lia)) HC) as ->.
      assert (B3 : (n <= 0x10ffff)%N) by (unfold is_scalar in SC; lia).
      replace (1114111 <? n)%N with false by lia. unfold char_from_u32. rewrite SC. exact K.
Qed.

Lemma unescape_sound : forall fuel s res x, unescape_loop fuel s res = Ret (Some x) ->
  exists r, x = res ++ r /\ tolerated s r.
Proof.
  induction fuel as [|k IH]; intros s res x H; [discriminate|]. cbn [unescape_loop] in H.
  destruct s as [|c s]; [injection H as <-; exists []; split; [rewrite app_nil_r; reflexivity|constructor]|].
  destruct (N.eqb_spec c 92) as [->|N1].
  - destruct s as [|e s]; [discriminate|].
    assert (LET : forall c, letter_escape e c -> unescape_loop k s (res ++ [c]) = Ret (Some x) ->
      exists r, x = res ++ r /\ tolerated (92%N :: e :: s) r).
    { intros c HL K. apply IH in K. destruct K as (r & -> & T). exists (c :: r). rewrite <- app_assoc. split; [reflexivity|].
      apply (T_escape [92%N; e] c s r); [apply E_letter, HL|exact T]. }
    destruct (N.eqb_spec e 34) as [->|A1]; [apply (LET 34%N); [constructor|exact H]|].
    destruct (N.eqb_spec e 92) as [->|A2]; [apply (LET 92%N); [constructor|exact H]|].
    destruct (N.eqb_spec e 114) as [->|A3]; [apply (LET 13%N); [constructor|exact H]|].
    destruct (N.eqb_spec e 110) as [->|A4]; [apply (LET 10%N); [constructor|exact H]|].
    destruct (N.eqb_spec e 116) as [->|A5]; [apply (LET 9%N); [constructor|exact H]|].
    destruct (N.eqb_spec e 48) as [->|A6]; [apply (LET 0%N); [constructor|exact H]|].
    destruct (N.eqb_spec e 39) as [->|A7]; [apply (LET 39%N); [constructor|exact H]|].
    clear LET. destruct (N.eqb_spec e 120) as [->|A8].
    + destruct (blen (firstn 2 s) =? 2) eqn:B; cbn [negb] in H; [|discriminate]. apply Nat.eqb_eq in B. rewrite B in H.
      destruct (advance 2 s) as [s'|] eqn:AD; [|discriminate].
      destruct (from_str_radix 16 255 (firstn 2 s)) as [n|] eqn:F; [|discriminate].
      destruct (N.ltb_spec 127 n); [discriminate|].
      destruct s as [|h1 [|h2 s]]; try discriminate. cbn [advance firstn] in *. injection AD as <-.
      apply IH in H. destruct H as (r & -> & T). exists (n :: r). rewrite <- app_assoc. split; [reflexivity|].
      apply (T_escape [92; 120; h1; h2]%N n s r); [|exact T]. apply E_byte; [|assumption].
      apply (from_str_radix_spec 255); [lia|exact F].
    + destruct (N.eqb_spec e 117) as [->|A9]; [|discriminate].
      destruct s as [|b s]; [discriminate|]. destruct (N.eqb_spec b 123) as [->|B]; cbn [negb] in H; [|discriminate].
      remember (take_while (fun c => negb (c =? 125)%N) s) as t eqn:ET. symmetry in ET.
      destruct (match t with [] => true | _ => false end || (6 <? blen t)) eqn:Q; [discriminate|].
      destruct (advance (blen t + 1) s) as [s'|] eqn:AD; [|discriminate].
      destruct (from_str_radix 16 (2 ^ 32 - 1) t) as [n|] eqn:F; [|discriminate].
      destruct (N.ltb_spec 1114111 n); [discriminate|].
      unfold char_from_u32 in H. destruct (is_scalar n) eqn:SC; [|discriminate].
      pose proof (from_str_radix_le _ _ _ F) as LE. apply (from_str_radix_spec _ _ _ LE) in F.
      rewrite (plus_hex_blen _ _ F) in *.
      apply take_while_inv in ET. destruct ET as [->|(s0 & ->)].
      * rewrite advance_short in AD by lia. discriminate.
      * pose proof (advance_app (t ++ [125%N]) s0) as AA. rewrite app_length, <- app_assoc in AA.
        assert (Q2 : Some s' = Some s0) by exact (eq_trans (eq_sym AD) AA). injection Q2 as ->.
        apply IH in H. destruct H as (r & -> & T). exists (n :: r). rewrite <- app_assoc. split; [reflexivity|].
        assert (ES : tolerated (([92; 117; 123]%N ++ t ++ [125]%N) ++ s0) (n :: r)).
        { apply T_escape; [|exact T].
          apply E_unicode; [exact F| |exact SC]. apply orb_false_iff in Q. destruct Q as (_ & Q). lia. }
        rewrite <- !app_assoc in ES. exact ES.
  - destruct (N.eqb_spec c 34) as [->|N2].
    + apply IH in H. destruct H as (r & -> & T). exists r. split; [reflexivity|]. constructor. exact T.
    + apply IH in H. destruct H as (r & -> & T). exists (c :: r). rewrite <- app_assoc. split; [reflexivity|]. constructor; assumption.
Qed.

Lemma unescape_total : forall fuel s res, length s < fuel -> exists o, unescape_loop fuel s res = Ret o.
Proof.
  induction fuel as [|k IH]; intros s res L; [lia|]. cbn [unescape_loop].
  repeat (match goal with
    | |- exists o, Ret _ = Ret o => eexists; reflexivity
    | |- exists o, unescape_loop k _ _ = Ret o => apply IH
    | |- context [match ?x with _ => _ end] => destruct x eqn:?
    end); cbn [length] in *; subst;
    repeat (match goal with A : advance _ _ = Some _ |- _ => apply advance_length in A end); cbn [length] in *; try lia.
Qed.

Lemma unescape_iff : forall s r, unescape s = Ret (Some r) <-> tolerated s r.
Proof.
  intros s r. unfold unescape. split.
  - intro H. apply unescape_sound in H. destruct H as (r' & E & T). cbn [app] in E. subst. exact T.
  - intro T. rewrite (unescape_complete _ _ T) by lia. reflexivity.
Qed.
Lemma unescape_ret : forall s, exists o, unescape s = Ret o.
Proof. intro s. apply unescape_total. lia. Qed.

Lemma escape_weaken : forall e c, escape hex e c -> escape plus_hex e c.
Proof.
  intros e c H. destruct H; [apply E_letter|apply E_byte|apply E_unicode]; try assumption; left; assumption.
Qed.
Lemma documented_tolerated : forall s r, documented s r -> tolerated s r.
Proof.
  induction 1 as [|c s r N1 N2 H IH|e c s r E H IH]; [constructor|constructor; assumption|].
  apply T_escape; [apply escape_weaken, E|exact IH].
Qed.

Lemma hex_digit_of : forall d, (d < 16)%N -> exists c, hex_digit c d.
Proof.
  intros d L. unfold hex_digit. destruct (N.ltb_spec d 10); [exists (48 + d)%N|exists (87 + d)%N]; lia.
Qed.
Lemma hex_exists : forall k n, (n < 16 ^ N.of_nat k)%N -> k <> 0 -> exists t, hex t n /\ length t <= k.
Proof.
  induction k as [|k IH]; intros n L K; [congruence|]. rewrite Nat2N.inj_succ, N.pow_succ_r' in L.
  destruct (N.ltb_spec n 16) as [S|S].
  - destruct (hex_digit_of n S) as (c & H). exists [c]. split; [constructor; exact H|cbn; lia].
  - assert (D : (n mod 16 < 16)%N) by (apply N.mod_lt; lia).
    destruct (hex_digit_of _ D) as (c & H). destruct k as [|k]; [cbn in L; lia|].
    destruct (IH (n / 16)%N) as (t & Ht & B); [apply N.div_lt_upper_bound; lia|discriminate|].
    exists (t ++ [c]). split; [|rewrite app_length; cbn; lia].
    rewrite (N.div_mod n 16) by lia. constructor; assumption.
Qed.

(** Every character except surrogates has a braced escape. *)
Lemma unicode_escape_exists : forall c, is_scalar c = true -> exists e, escape hex e c /\ escape_syntax e /\ hd_error e = Some 92%N.
Proof.
  intros c H. destruct (hex_exists 6 c) as (t & Ht & B); [unfold is_scalar in H; cbn; lia|discriminate|].
  exists ([92; 117; 123]%N ++ t ++ [125]%N). split; [apply E_unicode; assumption|]. split; [|reflexivity].
  apply ES_unicode.
  - apply hex_iff in Ht. destruct Ht as (NE & _). destruct t; [congruence|]. cbn [length] in *. lia.
  - apply hex_iff in Ht. destruct Ht as (_ & ds & F & _). clear B. induction F; constructor; [eexists; eassumption|assumption].
Qed.
Lemma escaped_form_exists : forall r, exists s, inner_str s /\ documented s r.
Proof.
  induction r as [|c r (s & I & D)]; [exists []; split; constructor|].
  destruct (N.eq_dec c 92) as [->|N1]; [|destruct (N.eq_dec c 34) as [->|N2]].
  - exists ([92; 92]%N ++ s). split; [apply IS_escape; [eapply ES_letter; constructor|exact I]|].
    apply D_escape; [apply E_letter; constructor|exact D].
  - exists ([92; 34]%N ++ s). split; [apply IS_escape; [eapply ES_letter; constructor|exact I]|].
    apply D_escape; [apply E_letter; constructor|exact D].
  - exists (c :: s). split; constructor; assumption.
Qed.

(** On literals that the grammar of grammar files accepts, the two meanings agree. *)
Lemma is_hex_not_plus : forall c, is_hex c -> c <> 43%N.
Proof. intros c (d & H) ->. unfold hex_digit in H. lia. Qed.
Lemma plus_hex_is_hex : forall t n, plus_hex t n -> Forall is_hex t -> hex t n.
Proof.
  intros t n [H|(u & -> & H)] F; [exact H|]. inversion F; subst. exfalso. eapply is_hex_not_plus; [eassumption|reflexivity].
Qed.
Lemma brace_split : forall t t' (s s' : text), Forall (fun c => c <> 125%N) t -> Forall (fun c => c <> 125%N) t' ->
  t ++ 125%N :: s = t' ++ 125%N :: s' -> t = t' /\ s = s'.
Proof.
  induction t as [|c t IH]; intros [|c' t'] s s' F F' E; cbn [app] in E.
  - injection E as <-. auto.
  - injection E as <- _. inversion F'; congruence.
  - injection E as -> _. inversion F; congruence.
  - injection E as -> E. inversion F; inversion F'; subst. destruct (IH t' s s') as (-> & ->); auto.
Qed.
Lemma is_hex_no_brace : forall t, Forall is_hex t -> Forall (fun c => c <> 125%N) t.
Proof. intros t F. eapply Forall_impl; [|exact F]. intros c (d & H) ->. unfold hex_digit in H. lia. Qed.

Lemma literal_documented : forall s, inner_str s -> forall r, tolerated s r -> documented s r.
Proof.
  induction 1 as [|c s N1 N2 I IH|e s ES I IH]; intros r T.
  - inversion T as [| | |e c s r' E T' Q]; subst; [constructor|]. destruct E; discriminate.
  - inversion T as [|? ? r' _ _ T'|? ? T'|e c' s' r' E T' Q]; subst.
    + constructor; auto.
    + congruence.
    + destruct E; cbn [app] in Q; injection Q as <-; congruence.
  - inversion T as [Q|c s' r' M1 M2 T' Q|s' r' T' Q|e' c' s' r' E T' Q]; subst.
    + destruct ES; discriminate.
    + exfalso. destruct ES; cbn [app] in Q; injection Q as ->; congruence.
    + exfalso. destruct ES; cbn [app] in Q; discriminate.
    + assert (K : escape hex e c' /\ s' = s).
      { destruct ES as [a ca La|h1 h2 H1 H2|t Bt Ft]; destruct E as [b cb Lb|g1 g2 n HC B|u n HC B SC]; cbn [app] in Q.
        - injection Q as <- <-. split; [constructor; assumption|reflexivity].
        - injection Q as <- _. inversion La.
        - injection Q as <- _. inversion La.
        - injection Q as -> _. inversion Lb.
        - injection Q as <- <- <-. split; [|reflexivity]. apply E_byte; [|exact B].
          apply plus_hex_is_hex; [exact HC|]. repeat constructor; assumption.
        - discriminate.
        - injection Q as -> _. inversion Lb.
        - discriminate.
        - injection Q as Q. rewrite <- !app_assoc in Q. cbn [app] in Q.
          apply brace_split in Q; [|apply (plus_hex_no_brace _ _ HC)|apply (is_hex_no_brace _ Ft)].
          destruct Q as (-> & ->). split; [|reflexivity]. apply E_unicode; [|exact B|exact SC]. apply plus_hex_is_hex; assumption. }
      destruct K as (K & ->). rewrite Q. apply (D_escape e); [exact K|]. apply IH, T'.
Qed.
