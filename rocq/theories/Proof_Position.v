(** Lemmas about Model_Position. *)
From Coq Require Import List ZArith NArith Arith Bool Lia ZifyBool ZifyNat ZifyN.
From Verif Require Import Model_Text Model_Position Spec_Text Proof_Text.
Import ListNotations.

Lemma position_new_spec : forall s pos, position_new s pos = Some pos <-> boundary s pos.
Proof.
  intros s pos. unfold position_new, boundary. split.
  - destruct (get_from s pos) as [b|] eqn:E; [|discriminate]. intros _.
    apply get_from_inv in E as [a [Ha Hl]]. exists a, b. auto.
  - intros [a [b [-> ->]]]. rewrite get_from_app. reflexivity.
Qed.

Lemma match_string_true : forall a b l r,
  b = l ++ r -> match_string (a ++ b) (blen a) l = (true, blen (a ++ l)).
Proof.
  intros a b l r ->. unfold match_string.
  assert (H : bytes_get (bytes (a ++ l ++ r)) (blen a) (blen a + blen l) = Some (bytes l)).
  { apply bytes_get_prefix. exists r. reflexivity. }
  rewrite H. assert (E : bytes_eqb (bytes l) (bytes l) = true) by (apply bytes_eqb_eq; reflexivity).
  rewrite E, blen_app. reflexivity.
Qed.

Lemma match_string_false : forall a b l,
  ~ starts_with l b -> match_string (a ++ b) (blen a) l = (false, blen a).
Proof.
  intros a b l H. unfold match_string.
  destruct (bytes_get (bytes (a ++ b)) (blen a) (blen a + blen l)) as [x|] eqn:E; [|reflexivity].
  destruct (bytes_eqb (bytes l) x) eqn:F; [|reflexivity].
  apply bytes_eqb_eq in F. subst x. exfalso. apply H. apply bytes_get_prefix in E. exact E.
Qed.

Lemma starts_with_dec : forall l b, starts_with l b \/ ~ starts_with l b.
Proof.
  induction l as [|c l IH]; intros b.
  - left. exists b. reflexivity.
  - destruct b as [|d b].
    + right. intros [r H]. discriminate.
    + destruct (N.eq_dec c d) as [->|N].
      * destruct (IH b) as [[r ->]|H].
        -- left. exists r. reflexivity.
        -- right. intros [r E]. apply H. exists r. inversion E; auto.
      * right. intros [r E]. inversion E. congruence.
Qed.

Lemma match_insensitive_true : forall a b l m r,
  b = m ++ r -> map ascii_fold m = map ascii_fold l ->
  match_insensitive (a ++ b) (blen a) l = Ret (true, blen (a ++ m)).
Proof.
  intros a b l m r -> H. unfold match_insensitive. rewrite get_from_app. cbn [or_panic obind].
  assert (L : blen m = blen l).
  { rewrite <- (blen_lower m), <- (blen_lower l). exact (f_equal blen H). }
  assert (G : get_range (m ++ r) 0 (blen l) = Some m).
  { rewrite <- L. apply (get_range_app [] m r). }
  rewrite G. assert (E : eq_ignore_ascii_case m l = true) by (apply eq_ignore_ascii_case_spec; exact H).
  rewrite E, blen_app, L. reflexivity.
Qed.

Lemma match_insensitive_false : forall a b l,
  (~ exists m r, b = m ++ r /\ map ascii_fold m = map ascii_fold l) ->
  match_insensitive (a ++ b) (blen a) l = Ret (false, blen a).
Proof.
  intros a b l H. unfold match_insensitive. rewrite get_from_app. cbn [or_panic obind].
  destruct (get_range b 0 (blen l)) as [x|] eqn:E; [|reflexivity].
  destruct (eq_ignore_ascii_case x l) eqn:F; [|reflexivity].
  exfalso. apply H. apply get_range_inv in E as [a' [c [E1 [E2 _]]]].
  apply blen_zero in E2. subst a'. exists x, c. split; [exact E1|].
  apply eq_ignore_ascii_case_spec in F. exact F.
Qed.

Lemma take_len_spec : forall n cs len,
  take_len cs n len = if n <=? length cs then Some (len + blen (firstn n cs)) else None.
Proof.
  induction n as [|n IH]; intros cs len.
  - destruct cs; cbn; rewrite Nat.add_0_r; reflexivity.
  - destruct cs as [|c cs]; [reflexivity|]. cbn [take_len length firstn blen Nat.leb].
    rewrite IH. destruct (n <=? length cs); [|reflexivity]. f_equal. lia.
Qed.

Lemma skip_true : forall a m r,
  skip (a ++ m ++ r) (blen a) (length m) = Ret (true, blen (a ++ m)).
Proof.
  intros a m r. unfold skip. rewrite get_from_app. cbn [or_panic obind].
  rewrite take_len_spec, app_length.
  destruct (length m <=? length m + length r) eqn:L; [|lia].
  rewrite firstn_app, firstn_all, Nat.sub_diag. cbn [firstn]. rewrite app_nil_r, blen_app.
  reflexivity.
Qed.

Lemma skip_false : forall a b n,
  length b < n -> skip (a ++ b) (blen a) n = Ret (false, blen a).
Proof.
  intros a b n H. unfold skip. rewrite get_from_app. cbn [or_panic obind].
  rewrite take_len_spec. destruct (n <=? length b) eqn:L; [lia|reflexivity].
Qed.

Lemma skip_back_true : forall a m r,
  skip_back (a ++ m ++ r) (blen (a ++ m)) (length m) = Ret (true, blen a).
Proof.
  intros a m r. unfold skip_back. rewrite app_assoc, get_to_app. cbn [or_panic obind].
  rewrite take_len_spec, rev_app_distr, app_length, !rev_length.
  destruct (length m <=? length m + length a) eqn:L; [|lia].
  rewrite firstn_app, rev_length, Nat.sub_diag, <- (rev_length m), firstn_all. cbn [firstn].
  rewrite app_nil_r, blen_rev, blen_app. cbn [Nat.add].
  destruct (blen m <=? blen a + blen m) eqn:E; [|lia].
  do 2 f_equal. lia.
Qed.

Lemma skip_back_false : forall a b n,
  length a < n -> skip_back (a ++ b) (blen a) n = Ret (false, blen a).
Proof.
  intros a b n H. unfold skip_back. rewrite get_to_app. cbn [or_panic obind].
  rewrite take_len_spec, rev_length. destruct (n <=? length a) eqn:L; [lia|reflexivity].
Qed.

(** *** skip_until *)

Lemma any_prefix_spec : forall strings b, any_prefix (bytes b) strings = true <-> occurs strings b.
Proof.
  intros strings b. unfold occurs. induction strings as [|t ts IH].
  - cbn. split; [discriminate|]. intros [l [[] _]].
  - cbn [any_prefix].
    assert (P := bytes_get_prefix [] b t). cbn [app blen Nat.add] in P.
    destruct (bytes_get (bytes b) 0 (blen t)) as [x|] eqn:E.
    + destruct (bytes_eqb (bytes t) x) eqn:F.
      * apply bytes_eqb_eq in F. subst x. split; [|reflexivity]. intros _.
        exists t. split; [left; reflexivity|]. apply P. reflexivity.
      * rewrite IH. split.
        -- intros [l [H1 H2]]. exists l. split; [right; exact H1|exact H2].
        -- intros [l [[->|H1] H2]]; [|exists l; auto].
           apply P in H2. inversion H2; subst. exfalso.
           assert (bytes_eqb (bytes l) (bytes l) = true) by (apply bytes_eqb_eq; reflexivity).
           congruence.
    + rewrite IH. split.
      * intros [l [H1 H2]]. exists l. split; [right; exact H1|exact H2].
      * intros [l [[->|H1] H2]]; [|exists l; auto]. apply P in H2. discriminate.
Qed.

Lemma skip_until_loop_some : forall strings s count from p,
  skip_until_loop s strings from count = Some p ->
  from <= p < from + count /\
  (exists r, get_from s p = Some r /\ occurs strings r) /\
  (forall q r, from <= q < p -> get_from s q = Some r -> ~ occurs strings r).
Proof.
  intros strings s. induction count as [|k IH]; intros from p H; [discriminate|].
  cbn [skip_until_loop] in H.
  destruct (get_from s from) as [rest|] eqn:E.
  - destruct (any_prefix (bytes rest) strings) eqn:F.
    + inversion H; subst. split; [lia|]. split.
      * exists rest. split; [exact E|]. apply any_prefix_spec. exact F.
      * intros q r Hq. lia.
    + apply IH in H as [H1 [H2 H3]]. split; [lia|]. split; [exact H2|].
      intros q r Hq G. destruct (Nat.eq_dec q from) as [->|N].
      * rewrite E in G. inversion G; subst. rewrite <- any_prefix_spec. congruence.
      * apply (H3 q r); [lia|exact G].
  - apply IH in H as [H1 [H2 H3]]. split; [lia|]. split; [exact H2|].
    intros q r Hq G. destruct (Nat.eq_dec q from) as [->|N]; [congruence|].
    apply (H3 q r); [lia|exact G].
Qed.

Lemma skip_until_loop_none : forall strings s count from,
  skip_until_loop s strings from count = None ->
  forall q r, from <= q < from + count -> get_from s q = Some r -> ~ occurs strings r.
Proof.
  intros strings s. induction count as [|k IH]; intros from H q r Hq G; [lia|].
  cbn [skip_until_loop] in H.
  destruct (get_from s from) as [rest|] eqn:E.
  - destruct (any_prefix (bytes rest) strings) eqn:F; [discriminate|].
    destruct (Nat.eq_dec q from) as [->|N].
    + rewrite E in G. inversion G; subst. rewrite <- any_prefix_spec. congruence.
    + apply (IH (from + 1) H q r); [lia|exact G].
  - destruct (Nat.eq_dec q from) as [->|N]; [congruence|].
    apply (IH (from + 1) H q r); [lia|exact G].
Qed.

Lemma get_from_mid : forall a m r, get_from (a ++ m ++ r) (blen (a ++ m)) = Some r.
Proof. intros a m r. rewrite app_assoc. apply get_from_app. Qed.

Lemma blen_pos : forall r, r <> [] -> 1 <= blen r.
Proof.
  intros [|c r] H; [congruence|]. cbn [blen]. pose proof (len_utf8_pos c). lia.
Qed.

Lemma skip_until_sound : forall a b strings ok p,
  skip_until (a ++ b) (blen a) strings = (ok, p) ->
  if ok then
    exists m r, b = m ++ r /\ r <> [] /\ p = blen (a ++ m) /\ occurs strings r /\
      forall m' r', b = m' ++ r' -> length m' < length m -> ~ occurs strings r'
  else p = blen (a ++ b) /\ forall m r, b = m ++ r -> r <> [] -> ~ occurs strings r.
Proof.
  intros a b strings ok p H. unfold skip_until in H.
  destruct (skip_until_loop (a ++ b) strings (blen a) (blen (a ++ b) - blen a)) as [q|] eqn:E;
    inversion H; subst; clear H.
  - apply skip_until_loop_some in E as [H1 [[r [H2 H3]] H4]].
    apply get_from_inv in H2 as [x [Hx Hl]]. subst p.
    destruct (split_compare a b x r) as [m [-> Hm]]; [exact Hx|lia|].
    subst b. exists m, r. rewrite !blen_app in *. repeat split; auto.
    + intros ->. cbn [blen] in H1. lia.
    + intros m' r' Hm' Hlt. apply (H4 (blen (a ++ m'))).
      * rewrite blen_app.
        destruct (split_compare m' r' m r) as [z [Hz1 Hz2]]; [congruence| |].
        { destruct (Nat.le_gt_cases (blen m') (blen m)) as [L|L]; [exact L|exfalso].
          destruct (split_compare m r m' r') as [z [Hz1 Hz2]]; [congruence|lia|].
          subst m'. rewrite app_length in Hlt. lia. }
        subst m. rewrite app_length in Hlt. rewrite blen_app.
        assert (1 <= blen z) by (apply blen_pos; destruct z; [cbn in Hlt; lia|discriminate]). lia.
      * rewrite Hm'. apply get_from_mid.
  - split; [reflexivity|]. intros m r Hb Hr. subst b.
    apply (skip_until_loop_none _ _ _ _ E (blen (a ++ m))).
    + rewrite !blen_app. pose proof (blen_pos r Hr). lia.
    + apply get_from_mid.
Qed.

(** *** Single characters *)

Lemma match_range_cons : forall a c b lo hi,
  match_range (a ++ c :: b) (blen a) lo hi =
  if ((lo <=? c) && (c <=? hi))%N then Ret (true, blen (a ++ [c])) else Ret (false, blen a).
Proof.
  intros. unfold match_range. rewrite get_from_app. cbn [or_panic obind].
  rewrite blen_app. cbn [blen]. rewrite Nat.add_0_r. reflexivity.
Qed.

Lemma match_range_nil : forall a lo hi, match_range a (blen a) lo hi = Ret (false, blen a).
Proof.
  intros. unfold match_range. rewrite <- (app_nil_r a) at 1. rewrite get_from_app. reflexivity.
Qed.

Lemma match_char_by_cons : forall a c b f,
  match_char_by (a ++ c :: b) (blen a) f =
  if f c then Ret (true, blen (a ++ [c])) else Ret (false, blen a).
Proof.
  intros. unfold match_char_by. rewrite get_from_app. cbn [or_panic obind].
  rewrite blen_app. cbn [blen]. rewrite Nat.add_0_r. reflexivity.
Qed.

Lemma match_char_by_nil : forall a f, match_char_by a (blen a) f = Ret (false, blen a).
Proof.
  intros. unfold match_char_by. rewrite <- (app_nil_r a) at 1. rewrite get_from_app. reflexivity.
Qed.

Lemma next_char_cons : forall a c b,
  next_char (a ++ c :: b) (blen a) = Ret (Some c, blen (a ++ [c])).
Proof.
  intros. unfold next_char. rewrite get_from_app. cbn [or_panic obind].
  rewrite blen_app. cbn [blen]. rewrite Nat.add_0_r. reflexivity.
Qed.

Lemma next_char_nil : forall a, next_char a (blen a) = Ret (None, blen a).
Proof.
  intros. unfold next_char. rewrite <- (app_nil_r a) at 1. rewrite get_from_app.
  cbn [or_panic obind]. rewrite Nat.add_0_r. reflexivity.
Qed.

Lemma match_char_spec : forall a b c,
  match_char (a ++ b) (blen a) c = Ret true <-> exists r, b = c :: r.
Proof.
  intros a b c. unfold match_char. rewrite get_from_app. cbn [or_panic obind].
  destruct b as [|d b].
  - split; [discriminate|]. intros [r H]. discriminate.
  - split.
    + intro H. inversion H as [H1]. apply N.eqb_eq in H1. subst. exists b. reflexivity.
    + intros [r H]. inversion H; subst. rewrite N.eqb_refl. reflexivity.
Qed.

(** *** Lines *)

Lemma lf_count_app : forall a b, lf_count (a ++ b) = lf_count a + lf_count b.
Proof. induction a as [|c a IH]; intros b; [reflexivity|]. cbn. rewrite IH. lia. Qed.

Lemma lf_count_zero : forall a, ~ In LF a -> lf_count a = 0.
Proof.
  induction a as [|c a IH]; intros H; [reflexivity|]. cbn.
  destruct (N.eq_dec c LF) as [->|N].
  - exfalso. apply H. left. reflexivity.
  - cbn. apply IH. intro I. apply H. right. exact I.
Qed.

Lemma first_lf : forall b, ~ In LF b \/ exists b1 b2, b = b1 ++ LF :: b2 /\ ~ In LF b1.
Proof.
  induction b as [|c b IH].
  - left. intros [].
  - destruct (N.eq_dec c LF) as [->|N].
    + right. exists [], b. split; [reflexivity|]. intros [].
    + destruct IH as [H|[b1 [b2 [-> H]]]].
      * left. intros [E|I]; [congruence|auto].
      * right. exists (c :: b1), b2. split; [reflexivity|]. intros [E|I]; [congruence|auto].
Qed.

Lemma last_lf : forall b, ~ In LF b \/ exists b1 b2, b = b1 ++ LF :: b2 /\ ~ In LF b2.
Proof.
  intros b. destruct (first_lf (rev b)) as [H|[b1 [b2 [E H]]]].
  - left. intro I. apply H. apply in_rev. rewrite rev_involutive. exact I.
  - right. exists (rev b2), (rev b1). split.
    + apply (f_equal (@rev _)) in E. rewrite rev_involutive, rev_app_distr in E.
      cbn [rev] in E. rewrite <- app_assoc in E. exact E.
    + intro I. apply H. apply in_rev. exact I.
Qed.

Lemma after_last_lf_exists : forall a, exists y, after_last_lf a y.
Proof.
  intros a. destruct (last_lf a) as [H|[a1 [a2 [-> H]]]].
  - exists a, []. split; [reflexivity|]. split; [left; reflexivity|exact H].
  - exists a2, (a1 ++ [LF]). split; [rewrite <- app_assoc; reflexivity|].
    split; [right; exists a1; reflexivity|exact H].
Qed.

Lemma upto_first_lf_exists : forall b, exists y, upto_first_lf b y.
Proof.
  intros b. destruct (first_lf b) as [H|[b1 [b2 [-> H]]]].
  - exists b. right. auto.
  - exists (b1 ++ [LF]). left. exists b1, b2. rewrite <- app_assoc. auto.
Qed.

Lemma last_split_unique : forall x y x' y',
  x ++ y = x' ++ y' -> ends_line x -> ends_line x' -> ~ In LF y -> ~ In LF y' -> x = x' /\ y = y'.
Proof.
  assert (W : forall x y x' y', x ++ y = x' ++ y' -> blen x <= blen x' -> ends_line x' ->
              ~ In LF y -> x = x' /\ y = y').
  { intros x y x' y' E L Hx' Hy.
    destruct (split_compare x y x' y' E L) as [m [H1 H2]].
    destruct m as [|c m]; [rewrite app_nil_r in H1; auto|].
    exfalso. apply Hy. rewrite H2. apply in_or_app. left.
    destruct Hx' as [->|[z Hz]]; [destruct x; discriminate|].
    destruct (exists_last (l := c :: m)) as [m' [d Hd]]; [discriminate|].
    rewrite Hd in *. rewrite Hz, app_assoc in H1. apply app_inj_tail in H1 as [_ <-].
    apply in_or_app. right. left. reflexivity. }
  intros x y x' y' E Hx Hx' Hy Hy'.
  destruct (Nat.le_gt_cases (blen x) (blen x')) as [L|L].
  - exact (W _ _ _ _ E L Hx' Hy).
  - assert (L' : blen x' <= blen x) by lia.
    destruct (W _ _ _ _ (eq_sym E) L' Hx Hy') as [-> ->]. auto.
Qed.

Lemma line_col_loop_cr : forall c' r' pos line col,
  (c' =? LF)%N = false -> 1 <= pos ->
  line_col_loop (CR :: c' :: r') pos line col = line_col_loop (c' :: r') (pos - 1) line (col + 1).
Proof.
  intros c' r' pos line col E H. destruct pos; [lia|].
  change (line_col_loop (CR :: c' :: r') (S pos) line col) with
    (if (c' =? LF)%N then
       if S pos =? 1 then line_col_loop r' (S pos - 1) (line + 1) 1
       else line_col_loop r' (S pos - 2) (line + 1) 1
     else line_col_loop (c' :: r') (S pos - 1) line (col + 1)).
  rewrite E. reflexivity.
Qed.

Lemma line_col_loop_spec : forall n a line col,
  length a <= n ->
  exists y,
    (~ In LF a /\ y = length a + col \/
     exists z, after_last_lf a z /\ In LF a /\ y = 1 + length z) /\
    line_col_loop a (blen a) line col = Ret (line + lf_count a, y).
Proof.
  induction n as [|n IH]; intros a line col Hn.
  - destruct a; [|cbn in Hn; lia]. exists col. split.
    + left. split; [intros []|reflexivity].
    + cbn. rewrite Nat.add_0_r. reflexivity.
  - destruct a as [|c r].
    { exists col. split; [left; split; [intros []|reflexivity]|].
      cbn. rewrite Nat.add_0_r. reflexivity. }
    cbn [length] in Hn.
    assert (Hrest : forall line' col', exists y,
      (~ In LF r /\ y = length r + col' \/ exists z, after_last_lf r z /\ In LF r /\ y = 1 + length z) /\
      line_col_loop r (blen r) line' col' = Ret (line' + lf_count r, y)) by (intros; apply IH; lia).
    (* wrapping up a step over an ordinary character *)
    assert (Hstep : c <> LF ->
      line_col_loop (c :: r) (blen (c :: r)) line col = line_col_loop r (blen r) line (col + 1) ->
      exists y,
        (~ In LF (c :: r) /\ y = length (c :: r) + col \/
         exists z, after_last_lf (c :: r) z /\ In LF (c :: r) /\ y = 1 + length z) /\
        line_col_loop (c :: r) (blen (c :: r)) line col = Ret (line + lf_count (c :: r), y)).
    { intros Hc Hs. destruct (Hrest line (col + 1)) as [y [Hy Hl]].
      exists y. split.
      - destruct Hy as [[H1 H2]|[z [[x [E [H1 H2]]] [H3 H4]]]].
        + left. split; [intros [E|I]; [congruence|auto]|cbn [length]; lia].
        + right. exists z. split; [|split; [right; exact H3|exact H4]].
          destruct H1 as [->|[x' ->]].
          * cbn [app] in E. subst r. contradiction.
          * exists (c :: x' ++ [LF]). split; [cbn; rewrite <- E; reflexivity|].
            split; [right; exists (c :: x'); reflexivity|exact H2].
      - rewrite Hs, Hl. cbn [lf_count]. destruct (N.eq_dec c LF); [congruence|]. reflexivity. }
    (* wrapping up a step over a line break that ends with LF *)
    assert (Hbreak : forall pre r', c :: r = pre ++ LF :: r' -> ~ In LF pre -> length r' <= n ->
      line_col_loop (c :: r) (blen (c :: r)) line col = line_col_loop r' (blen r') (line + 1) 1 ->
      exists y,
        (~ In LF (c :: r) /\ y = length (c :: r) + col \/
         exists z, after_last_lf (c :: r) z /\ In LF (c :: r) /\ y = 1 + length z) /\
        line_col_loop (c :: r) (blen (c :: r)) line col = Ret (line + lf_count (c :: r), y)).
    { intros pre r' E Hpre Hlen Hs. destruct (IH r' (line + 1) 1 Hlen) as [y [Hy Hl]].
      exists y. split.
      - right. rewrite E. destruct Hy as [[H1 H2]|[z [[x [Ex [H1 H2]]] [H3 H4]]]].
        + exists r'. split; [|split; [apply in_or_app; right; left; reflexivity|lia]].
          exists (pre ++ [LF]). split; [rewrite <- app_assoc; reflexivity|].
          split; [right; exists pre; reflexivity|exact H1].
        + exists z. split; [|split; [apply in_or_app; right; left; reflexivity|exact H4]].
          exists (pre ++ LF :: x). split; [rewrite Ex, <- app_assoc; reflexivity|].
          split; [|exact H2]. right. destruct H1 as [->|[x' ->]].
          * exists pre. reflexivity.
          * exists (pre ++ LF :: x'). rewrite <- app_assoc. reflexivity.
      - rewrite Hs, Hl. rewrite E, lf_count_app, (lf_count_zero pre Hpre). cbn [lf_count].
        destruct (N.eq_dec LF LF); [|congruence]. do 2 f_equal. lia. }
    assert (Hpos := len_utf8_pos c).
    destruct (N.eq_dec c CR) as [->|NCR].
    + assert (L13 : len_utf8 CR = 1) by reflexivity.
      destruct r as [|c' r'].
      * apply Hstep; [discriminate|]. reflexivity.
      * destruct (N.eq_dec c' LF) as [->|NLF].
        -- apply (Hbreak [CR] r'); [reflexivity| |cbn in Hn; lia|].
           ++ intros [E|[]]. discriminate.
           ++ cbn [blen]. change (len_utf8 CR) with 1. change (len_utf8 LF) with 1.
              cbn [Nat.add]. cbn [line_col_loop].
              change (CR =? CR)%N with true. change (LF =? LF)%N with true. cbn iota.
              change (S (S (blen r')) =? 1) with false. cbn iota.
              f_equal. lia.
        -- apply Hstep; [discriminate|].
           destruct (c' =? LF)%N eqn:E; [apply N.eqb_eq in E; congruence|].
           rewrite line_col_loop_cr with (1 := E); [|cbn [blen]; change (len_utf8 CR) with 1; lia].
           f_equal. cbn [blen]. change (len_utf8 CR) with 1. lia.
    + assert (E13 : (c =? CR)%N = false) by (apply N.eqb_neq; exact NCR).
      destruct (N.eq_dec c LF) as [->|NLF].
      * apply (Hbreak [] r); [reflexivity|intros []|lia|].
        cbn [blen]. change (len_utf8 LF) with 1. cbn [Nat.add line_col_loop].
        change (LF =? CR)%N with false. change (LF =? LF)%N with true. cbn iota.
        f_equal. lia.
      * apply Hstep; [exact NLF|].
        assert (E10 : (c =? LF)%N = false) by (apply N.eqb_neq; exact NLF).
        cbn [blen]. destruct (len_utf8 c + blen r) as [|p] eqn:Ep; [lia|].
        cbn [line_col_loop]. rewrite E13, E10. rewrite <- Ep.
        destruct (len_utf8 c <=? len_utf8 c + blen r) eqn:Le; [|lia].
        f_equal. lia.
Qed.

Lemma line_col_spec : forall a b y,
  after_last_lf a y -> line_col (a ++ b) (blen a) = Ret (1 + lf_count a, 1 + length y).
Proof.
  intros a b y Hy. unfold line_col.
  destruct (blen (a ++ b) <? blen a) eqn:L; [rewrite blen_app in L; lia|].
  rewrite get_to_app. cbn [or_panic obind].
  destruct (line_col_loop_spec (length a) a 1 1 (le_n _)) as [k [Hk ->]].
  do 2 f_equal. destruct Hy as [x [E [Hx Hy]]].
  destruct Hk as [[H1 ->]|[z [[x' [E' [Hx' Hz]]] [_ ->]]]].
  - destruct Hx as [->|[x' ->]].
    + cbn in E. subst. lia.
    + exfalso. apply H1. rewrite E. apply in_or_app. left. apply in_or_app. right. left. reflexivity.
  - rewrite E in E'. destruct (last_split_unique x y x' z E' Hx Hx' Hy Hz) as [_ ->]. reflexivity.
Qed.

Lemma char_indices_from_app : forall a b o,
  char_indices_from o (a ++ b) = char_indices_from o a ++ char_indices_from (o + blen a) b.
Proof.
  induction a as [|c a IH]; intros b o.
  - cbn. rewrite Nat.add_0_r. reflexivity.
  - cbn [app char_indices_from blen]. rewrite IH, Nat.add_assoc. reflexivity.
Qed.

Lemma char_indices_from_bounds : forall s o i c,
  In (i, c) (char_indices_from o s) -> o <= i < o + blen s.
Proof.
  induction s as [|d s IH]; intros o i c H; [destruct H|].
  cbn [char_indices_from blen] in *. pose proof (len_utf8_pos d). destruct H as [H|H].
  - inversion H; subst. lia.
  - apply IH in H. lia.
Qed.

Lemma char_indices_from_map : forall s o, map snd (char_indices_from o s) = s.
Proof. induction s as [|c s IH]; intros o; [reflexivity|]. cbn. rewrite IH. reflexivity. Qed.

Lemma skip_while_all : forall (A : Type) (p : A -> bool) l r,
  Forall (fun x => p x = true) l -> skip_while p (l ++ r) = skip_while p r.
Proof.
  intros A p l r H. induction H as [|x l Hx H IH]; [reflexivity|]. cbn. rewrite Hx. exact IH.
Qed.

Lemma skip_while_none : forall (A : Type) (p : A -> bool) l,
  Forall (fun x => p x = false) l -> skip_while p l = l.
Proof. intros A p l H. destruct H as [|x l Hx H]; [reflexivity|]. cbn. rewrite Hx. reflexivity. Qed.

Lemma find_lf_none : forall l, ~ In LF (map snd l) ->
  find (fun ic : nat * char => (snd ic =? LF)%N) l = None.
Proof.
  induction l as [|[i c] l IH]; intros H; [reflexivity|]. cbn [find snd].
  destruct (c =? LF)%N eqn:E.
  - exfalso. apply H. left. apply N.eqb_eq in E. exact E.
  - apply IH. intro I. apply H. right. exact I.
Qed.

Lemma find_lf_some : forall l1 i l2, ~ In LF (map snd l1) ->
  find (fun ic : nat * char => (snd ic =? LF)%N) (l1 ++ (i, LF) :: l2) = Some (i, LF).
Proof.
  induction l1 as [|[j c] l IH]; intros i l2 H.
  - reflexivity.
  - cbn [app find snd]. destruct (c =? LF)%N eqn:E.
    + exfalso. apply H. left. apply N.eqb_eq in E. exact E.
    + apply IH. intro I. apply H. right. exact I.
Qed.

Lemma find_line_start_spec : forall a b y x,
  a = x ++ y -> ends_line x -> ~ In LF y -> find_line_start (a ++ b) (blen a) = blen x.
Proof.
  intros a b y x E Hx Hy. unfold find_line_start.
  destruct (a ++ b) as [|c0 s0] eqn:Es.
  - apply app_eq_nil in Es as [-> _]. symmetry in E. apply app_eq_nil in E as [-> _]. reflexivity.
  - rewrite <- Es. clear c0 s0 Es. unfold char_indices.
    rewrite char_indices_from_app, rev_app_distr. cbn [Nat.add].
    rewrite skip_while_all.
    2:{ apply Forall_rev. apply Forall_forall. intros [i c] I.
        apply char_indices_from_bounds in I. cbn [fst]. lia. }
    rewrite skip_while_none.
    2:{ apply Forall_rev. apply Forall_forall. intros [i c] I.
        apply char_indices_from_bounds in I. cbn [fst]. lia. }
    subst a. destruct Hx as [->|[x' ->]].
    + cbn [app blen]. rewrite find_lf_none; [reflexivity|].
      rewrite map_rev, char_indices_from_map. intro I. apply Hy. apply in_rev. exact I.
    + rewrite <- app_assoc, char_indices_from_app. cbn [app char_indices_from].
      rewrite rev_app_distr. cbn [rev]. rewrite <- app_assoc. cbn [app].
      rewrite find_lf_some; [rewrite blen_app; reflexivity|].
      rewrite map_rev, char_indices_from_map. intro I. apply Hy. apply in_rev. exact I.
Qed.

Lemma find_line_end_spec : forall a b y,
  upto_first_lf b y -> find_line_end (a ++ b) (blen a) = blen (a ++ y).
Proof.
  intros a b y Hy. unfold find_line_end.
  destruct (a ++ b) as [|c0 s0] eqn:Es.
  - apply app_eq_nil in Es as [-> ->]. destruct Hy as [[y' [r [-> [_ E]]]]|[-> _]]; [|reflexivity].
    destruct y'; discriminate.
  - rewrite <- Es.
    destruct (blen a =? blen (a ++ b) - 1) eqn:Eq.
    + assert (Hb : exists c, b = [c] /\ len_utf8 c = 1).
      { assert (L : blen b = 1).
        { assert (1 <= blen (a ++ b)) by (apply blen_pos; rewrite Es; discriminate).
          rewrite blen_app in *. lia. }
        destruct b as [|c b]; [discriminate|]. cbn [blen] in L. pose proof (len_utf8_pos c).
        assert (blen b = 0) as B by lia. apply blen_zero in B. subst b. exists c. split; [reflexivity|].
        cbn [blen] in L. lia. }
      destruct Hb as [c [-> Hc]]. f_equal. f_equal.
      destruct Hy as [[y' [r [-> [Hn E]]]]|[-> _]]; [|reflexivity].
      destruct y' as [|d y']; cbn in E; inversion E; subst; [reflexivity|].
      destruct y'; discriminate.
    + clear c0 s0 Es Eq. unfold char_indices. rewrite char_indices_from_app. cbn [Nat.add].
      rewrite skip_while_all.
      2:{ apply Forall_forall. intros [i c] I. apply char_indices_from_bounds in I. cbn [fst]. lia. }
      rewrite skip_while_none.
      2:{ apply Forall_forall. intros [i c] I. apply char_indices_from_bounds in I. cbn [fst]. lia. }
      destruct Hy as [[y' [r [-> [Hn ->]]]]|[-> Hn]].
      * rewrite <- app_assoc, char_indices_from_app. cbn [app char_indices_from].
        rewrite find_lf_some; [|rewrite char_indices_from_map; exact Hn].
        rewrite !blen_app. cbn [blen]. change (len_utf8 LF) with 1. lia.
      * rewrite find_lf_none; [reflexivity|]. rewrite char_indices_from_map. exact Hn.
Qed.

Lemma line_of_spec : forall a b y z,
  after_last_lf a y -> upto_first_lf b z -> line_of (a ++ b) (blen a) = Ret (y ++ z).
Proof.
  intros a b y z [x [E [Hx Hy]]] Hz. unfold line_of.
  destruct (blen (a ++ b) <? blen a) eqn:L; [rewrite blen_app in L; lia|].
  rewrite (find_line_start_spec a b y x E Hx Hy), (find_line_end_spec a b z Hz).
  assert (Hb : exists r, b = z ++ r).
  { destruct Hz as [[z' [r [_ [_ ->]]]]|[-> _]]; [exists r; reflexivity|].
    exists []. rewrite app_nil_r. reflexivity. }
  destruct Hb as [r ->]. subst a.
  replace ((x ++ y) ++ z ++ r) with (x ++ (y ++ z) ++ r) by (rewrite !app_assoc; reflexivity).
  rewrite <- (app_assoc x y z). rewrite get_range_app. reflexivity.
Qed.

(** *** Forms used by the theorems *)

Lemma match_range_full : forall a lo hi,
  match_range a (blen a) lo hi = Ret (false, blen a) /\
  forall c b,
    ((lo <= c /\ c <= hi)%N -> match_range (a ++ c :: b) (blen a) lo hi = Ret (true, blen (a ++ [c]))) /\
    (~ (lo <= c /\ c <= hi)%N -> match_range (a ++ c :: b) (blen a) lo hi = Ret (false, blen a)).
Proof.
  intros a lo hi. split; [apply match_range_nil|]. intros c b. rewrite match_range_cons.
  split; intros H; destruct ((lo <=? c) && (c <=? hi))%N eqn:E; auto; lia.
Qed.

Lemma match_char_by_full : forall a f,
  match_char_by a (blen a) f = Ret (false, blen a) /\
  forall c b,
    (f c = true -> match_char_by (a ++ c :: b) (blen a) f = Ret (true, blen (a ++ [c]))) /\
    (f c = false -> match_char_by (a ++ c :: b) (blen a) f = Ret (false, blen a)).
Proof.
  intros a f. split; [apply match_char_by_nil|]. intros c b. rewrite match_char_by_cons.
  split; intros ->; reflexivity.
Qed.

Lemma skip_full : forall a b n,
  (forall m r, b = m ++ r -> length m = n -> skip (a ++ b) (blen a) n = Ret (true, blen (a ++ m))) /\
  (length b < n -> skip (a ++ b) (blen a) n = Ret (false, blen a)).
Proof.
  intros a b n. split.
  - intros m r -> <-. apply skip_true.
  - apply skip_false.
Qed.

Lemma skip_back_full : forall a b n,
  (forall x m, a = x ++ m -> length m = n -> skip_back (a ++ b) (blen a) n = Ret (true, blen x)) /\
  (length a < n -> skip_back (a ++ b) (blen a) n = Ret (false, blen a)).
Proof.
  intros a b n. split.
  - intros x m -> <-. rewrite <- app_assoc. apply skip_back_true.
  - apply skip_back_false.
Qed.

Lemma skip_roundtrip : forall a b n pos',
  skip (a ++ b) (blen a) n = Ret (true, pos') -> skip_back (a ++ b) pos' n = Ret (true, blen a).
Proof.
  intros a b n pos' H. destruct (Nat.le_gt_cases n (length b)) as [L|L].
  - destruct (skip_full a b n) as [S _].
    rewrite (S (firstn n b) (skipn n b)) in H.
    + inversion H; subst. pose proof (skip_back_true a (firstn n b) (skipn n b)) as K.
      rewrite firstn_skipn, (firstn_length_le b L) in K. exact K.
    + symmetry. apply firstn_skipn.
    + apply firstn_length_le. exact L.
  - rewrite skip_false in H by exact L. discriminate.
Qed.

Lemma line_col_full : forall a b, exists y,
  after_last_lf a y /\ line_col (a ++ b) (blen a) = Ret (1 + lf_count a, 1 + length y).
Proof.
  intros a b. destruct (after_last_lf_exists a) as [y H]. exists y. split; [exact H|].
  apply line_col_spec. exact H.
Qed.

Lemma line_of_full : forall a b, exists y z,
  after_last_lf a y /\ upto_first_lf b z /\ line_of (a ++ b) (blen a) = Ret (y ++ z).
Proof.
  intros a b. destruct (after_last_lf_exists a) as [y H]. destruct (upto_first_lf_exists b) as [z K].
  exists y, z. split; [exact H|]. split; [exact K|]. apply line_of_spec; assumption.
Qed.

Lemma position_eqb_same : forall addr s i j,
  position_eqb (mkPosition addr s i) (mkPosition addr s j) = true <-> i = j.
Proof.
  intros. unfold position_eqb, str_ptr_eq. cbn [p_addr p_input p_pos]. lia.
Qed.

Lemma position_cmp_same : forall addr s i j c,
  position_cmp (mkPosition addr s i) (mkPosition addr s j) = Ret c <->
  match c with Lt => i < j | Eq => i = j | Gt => j < i end.
Proof.
  intros addr s i j c. unfold position_cmp. cbn [p_addr p_input p_pos].
  assert (E : text_eqb s s = true) by (apply text_eqb_eq; reflexivity). rewrite E.
  destruct (Nat.compare_spec i j); destruct c; split; intro H'; try (inversion H'; subst); try lia; auto.
Qed.

Lemma position_cmp_other : forall p q, p_input p <> p_input q -> position_cmp p q = Panic.
Proof.
  intros p q H. unfold position_cmp. destruct (text_eqb (p_input p) (p_input q)) eqn:E; [|reflexivity].
  apply text_eqb_eq in E. contradiction.
Qed.

Lemma span_eqb_same : forall addr s i j k l,
  span_eqb (mkSpan addr s i j) (mkSpan addr s k l) = true <-> i = k /\ j = l.
Proof.
  intros. unfold span_eqb, str_ptr_eq. cbn [sp_addr sp_input sp_start sp_end]. lia.
Qed.

Lemma other_address : forall p q,
  p_addr p <> p_addr q -> position_eqb p q = false /\ position_span p q = Panic.
Proof.
  intros p q H. unfold position_eqb, position_span, str_ptr_eq.
  destruct (p_addr p =? p_addr q)%N eqn:E; [lia|]. split; reflexivity.
Qed.

Lemma span_other_address : forall x y, sp_addr x <> sp_addr y -> span_eqb x y = false.
Proof.
  intros x y H. unfold span_eqb, str_ptr_eq.
  destruct (sp_addr x =? sp_addr y)%N eqn:E; [lia|]. reflexivity.
Qed.

Lemma position_span_same : forall addr s i j,
  boundary s i -> boundary s j ->
  (i <= j -> position_span (mkPosition addr s i) (mkPosition addr s j) = Ret (mkSpan addr s i j)) /\
  (j < i -> position_span (mkPosition addr s i) (mkPosition addr s j) = Panic).
Proof.
  intros addr s i j [a [b [E1 ->]]] [x [y [E2 ->]]]. unfold position_span, str_ptr_eq.
  cbn [p_addr p_input p_pos]. rewrite N.eqb_refl, Nat.eqb_refl. cbn [andb]. split; intros L.
  - destruct (split_compare a b x y) as [m [-> ->]]; [congruence|exact L|].
    subst s. rewrite get_range_app. reflexivity.
  - destruct (get_range s (blen a) (blen x)) as [m|] eqn:E; [|reflexivity].
    apply get_range_inv in E as [a' [c [_ [H1 H2]]]]. rewrite blen_app in H2. lia.
Qed.

Lemma cmp_eq_mismatch : exists p q,
  boundary (p_input p) (p_pos p) /\ boundary (p_input q) (p_pos q) /\
  position_cmp p q = Ret Eq /\ position_eqb p q = false.
Proof.
  exists (mkPosition 1 [97%N] 0), (mkPosition 2 [97%N] 0).
  repeat split; (exists [], [97%N]; split; reflexivity).
Qed.
