(** Proofs about the display of spans and positions. *)
From Coq Require Import String List NArith ZArith Arith Bool Lia ZifyBool ZifyNat ZifyN.
From Verif Require Import Model_Text Model_Position Model_Span Model_Message Model_Format
  Spec_Text Spec_Message Spec_Format Proof_Text Proof_Position Proof_Span Proof_Message.
Import ListNotations.
Open Scope list_scope.

(** * Visualisation *)
Lemma visualize_char_spec : forall c, visible_char c (visualize_char c).
Proof.
  intro c. unfold visible_char, is_control.
  destruct (N.ltb_spec c 32) as [L|L].
  - left. split; [exact L|].
    assert (I : In c (map N.of_nat (seq 0 32))).
    { apply in_map_iff. exists (N.to_nat c). split; [lia|]. apply in_seq. lia. }
    cbn in I. repeat (destruct I as [<-|I]; [reflexivity|]). contradiction.
  - destruct (N.eq_dec c 127) as [->|N]; [right; left; split; reflexivity|].
    right. right. split; [lia|]. unfold visualize_char.
    match goal with |- context [find ?f pictures] => destruct (find f pictures) as [p|] eqn:E end; [exfalso|reflexivity].
    apply find_some in E. destruct E as (I & E). apply N.eqb_eq in E.
    assert (F : Forall (fun p : char * char => (fst p < 32 \/ fst p = 127)%N) pictures).
    { unfold pictures. repeat (apply Forall_cons; [first [left; reflexivity | right; reflexivity]|]). apply Forall_nil. }
    rewrite Forall_forall in F. specialize (F _ I). destruct p as (x, y). cbn [fst] in E, F. rewrite E in F. destruct F as [F|F]; [lia|contradiction].
Qed.
Lemma visible_char_unique : forall c v v', visible_char c v -> visible_char c v' -> v = v'.
Proof. unfold visible_char, is_control. intros. lia. Qed.

Lemma visualize_spec : forall t, visible t (visualize t).
Proof. induction t as [|c t IH]; constructor; [apply visualize_char_spec|exact IH]. Qed.
Lemma visible_unique : forall t v, visible t v -> v = visualize t.
Proof.
  intros t v H. induction H as [|c d t v A _ IH]; [reflexivity|]. cbn [visualize map]. f_equal; [|exact IH].
  eapply visible_char_unique; [exact A|apply visualize_char_spec].
Qed.
Lemma visible_no_control : forall t v, visible t v -> Forall (fun c => ~ is_control c) v.
Proof.
  intros t v H. induction H as [|c d t v A _ IH]; constructor; [|exact IH].
  unfold visible_char, is_control in *. lia.
Qed.
Lemma visible_length : forall t v, visible t v -> length v = length t.
Proof. intros t v H. induction H; cbn; congruence. Qed.
Lemma visible_id : forall t, Forall (fun c => ~ is_control c) t -> visible t t.
Proof. intros t H. induction H; constructor; [|assumption]. right. right. split; [assumption|reflexivity]. Qed.

(** * Numbers *)
Lemma notation_step : forall t n, notation t n -> (10 <= n)%N ->
  exists u c, t = u ++ [c] /\ notation u (n / 10)%N.
Proof.
  intros t n (F & V & NE & Z) L. destruct (exists_last NE) as (u & c & ->). exists u, c. split; [reflexivity|].
  apply Forall_app in F. destruct F as (F1 & F2). inversion F2; subst.
  unfold value_of_digits in *. rewrite value_app in L |- *. cbn [fold_left] in *.
  set (x := fold_left (fun a c => (10 * a + digit_value c)%N) u 0%N) in *.
  assert (D : (digit_value c < 10)%N) by (unfold digit_value; lia).
  assert (Q : ((10 * x + digit_value c) / 10 = x)%N).
  { symmetry. apply (N.div_unique _ 10 x (digit_value c)); [exact D|reflexivity]. }
  rewrite Q. split; [exact F1|]. split; [reflexivity|]. split.
  - intros ->. cbn in x. subst x. lia.
  - intros r ->. destruct r as [|e r]; [reflexivity|]. specialize (Z _ eq_refl). discriminate.
Qed.
Lemma notation_small : forall t n, notation t n -> (n < 10)%N -> length t = 1.
Proof.
  intros t n H L. assert (E : notation [(48 + n)%N] n).
  { split; [constructor; [lia|constructor]|]. split; [unfold value_of_digits; cbn [fold_left]; unfold digit_value; lia|].
    split; [discriminate|]. intros r E. congruence. }
  rewrite (notation_unique _ _ _ H E). reflexivity.
Qed.
Lemma ceil_log10_loop_spec : forall fuel digit i t, i <= fuel -> notation t (N.of_nat i) ->
  ceil_log10_loop fuel digit i + 1 = digit + length t.
Proof.
  induction fuel as [|k IH]; intros digit i t L H.
  - cbn [ceil_log10_loop]. rewrite (notation_small _ _ H) by lia. lia.
  - cbn [ceil_log10_loop]. destruct (Nat.leb_spec 10 i) as [G|G].
    + destruct (notation_step _ _ H) as (u & c & -> & Hu); [lia|].
      replace (N.of_nat i / 10)%N with (N.of_nat (i / 10)) in Hu by (rewrite Nat2N.inj_div; reflexivity).
      rewrite (IH (digit + 1) (i / 10) u); [rewrite app_length; cbn [length]; lia| |exact Hu].
      assert (i / 10 < i) by (apply Nat.div_lt; lia). lia.
    + rewrite (notation_small _ _ H) by lia. lia.
Qed.
Lemma ceil_log10_spec : forall n t, notation t (N.of_nat n) -> ceil_log10 n = length t.
Proof.
  intros n t H. unfold ceil_log10. pose proof (ceil_log10_loop_spec n 1 n t (le_n _) H). lia.
Qed.
Lemma numbering_decimal : forall num n, numbering num -> decimal n = num n.
Proof. intros num n H. eapply notation_unique; [apply decimal_spec|apply H]. Qed.

(** * Lines *)
Lemma span_new_whole : forall addr s, span_new addr s 0 (blen s) = Some (mkSpan addr s 0 (blen s)).
Proof.
  intros. unfold span_new. pose proof (get_range_app [] s []) as H. cbn [app blen] in H. rewrite app_nil_r in H.
  rewrite H. reflexivity.
Qed.
Lemma split_at_app : forall a b, split_at (a ++ b) (blen a) = Ret (a, b).
Proof. intros. unfold split_at. rewrite get_to_app, get_from_app. reflexivity. Qed.
Lemma blen_pos : forall f, f <> [] -> 0 < blen f.
Proof.
  intros [|c f] H; [congruence|]. cbn [blen]. unfold len_utf8.
  repeat (match goal with |- context [if ?x then _ else _] => destruct x end); lia.
Qed.

Lemma locate_found : forall target La l Lz idx pos,
  pos + blen (concat La) <= target <= pos + blen (concat La) + blen l ->
  (La <> [] -> pos + blen (concat La) < target) ->
  locate target (La ++ l :: Lz) idx pos =
  (Some (idx + length La, target - (pos + blen (concat La))),
   (l :: Lz, idx + length La, pos + blen (concat La))).
Proof.
  intros target La. induction La as [|x La IH]; intros l Lz idx pos B S.
  - cbn [app locate concat blen length] in *.
    destruct (Nat.leb_spec target (pos + blen l)); [|lia].
    rewrite !Nat.add_0_r. reflexivity.
  - cbn [app locate concat length] in *. rewrite blen_app in *.
    assert (S' : pos + (blen x + blen (concat La)) < target) by (apply S; discriminate).
    destruct (Nat.leb_spec target (pos + blen x)); [lia|].
    rewrite IH; [|lia|intros _; lia]. rewrite <- !Nat.add_assoc. reflexivity.
Qed.

Lemma concat_position : forall (ls : list text) (a b : text), concat ls = a ++ b -> a <> [] ->
  exists La f g Lz, ls = La ++ (f ++ g) :: Lz /\ a = concat La ++ f /\ f <> [].
Proof.
  induction ls as [|l ls IH]; intros a b E N.
  - destruct a; [congruence|discriminate].
  - cbn [concat] in E. apply app_eq_app in E. destruct E as (k & [(-> & E)|(-> & E)]).
    + exists [], a, k, ls. split; [reflexivity|]. split; [reflexivity|exact N].
    + destruct k as [|c k].
      * rewrite app_nil_r in *. exists [], l, [], ls. rewrite app_nil_r. split; [reflexivity|]. split; [reflexivity|exact N].
      * destruct (IH (c :: k) b E) as (La & f & g & Lz & -> & K & Nf); [discriminate|].
        exists (l :: La), f, g, Lz. split; [reflexivity|]. split; [|exact Nf]. cbn [concat]. rewrite K, app_assoc. reflexivity.
Qed.

Lemma nth_error_last : forall (l : list text) d, l <> [] -> nth_error l (length l - 1) = Some (last l d).
Proof.
  intros l d N. destruct (exists_last N) as (x & y & ->). rewrite last_last, app_length. cbn [length].
  rewrite nth_error_app2 by lia. replace (length x + 1 - 1 - length x) with 0 by lia. reflexivity.
Qed.
Lemma last_map : forall (f : text -> text) l d, l <> [] -> last (map f l) d = f (last l d).
Proof.
  intros f l d N. destruct (exists_last N) as (x & y & ->). rewrite map_app. cbn [map]. rewrite !last_last. reflexivity.
Qed.

Section Format.
Variables covered marker number : text -> text.
Variable width : text -> nat.
Variable num : nat -> text.
Hypothesis NUM : numbering num.

Lemma padded_spec : forall w n, padded w n = blanks (w - length (num n)) ++ num n.
Proof. intros. unfold padded. rewrite (numbering_decimal num n NUM). reflexivity. Qed.

Ltac flat := repeat (rewrite <- app_assoc || cbn [app]).

Lemma single_pos_spec : forall n f g,
  display_snippet_single_pos marker number width (ceil_log10 (n + 1)) (mkPartition n f g) =
  point marker number width num (n + 1) f g.
Proof.
  intros. rewrite (ceil_log10_spec _ _ (NUM (n + 1))).
  unfold display_snippet_single_pos, point, plain_row, line_row, newline, spaces, blanks.
  cbn [p_line p_former p_latter]. rewrite padded_spec. unfold blanks. rewrite <- !app_assoc. reflexivity.
Qed.
Lemma single_line_spec : forall n f m g,
  display_snippet_single_line covered marker number width (ceil_log10 (n + 1)) (mkPartition2 n f m g) =
  one_line covered marker number width num (n + 1) f m g.
Proof.
  intros. rewrite (ceil_log10_spec _ _ (NUM (n + 1))).
  unfold display_snippet_single_line, one_line, plain_row, line_row, newline, spaces, blanks.
  cbn [p2_line p2_former p2_middle p2_latter]. rewrite padded_spec. unfold blanks. rewrite <- !app_assoc. reflexivity.
Qed.

Lemma display_span_one_line : forall addr La f m g Lz vf vm vg,
  let s := concat La ++ (f ++ m ++ g) ++ concat Lz in
  split_lines s = La ++ (f ++ m ++ g) :: Lz -> (f = [] -> La = []) ->
  visible f vf -> visible m vm -> visible g vg ->
  display_span covered marker number width
    (mkSpan addr s (blen (concat La ++ f)) (blen (concat La ++ f ++ m))) =
  Ret (one_line covered marker number width num (length La + 1) vf vm vg).
Proof.
  intros addr La f m g Lz vf vm vg s SL C Vf Vm Vg.
  apply visible_unique in Vf, Vm, Vg. subst vf vm vg.
  unfold display_span. cbn [sp_addr sp_input sp_start sp_end].
  rewrite span_new_whole. cbn [or_panic obind]. rewrite lines_whole by lia. cbn [obind]. rewrite SL.
  assert (P : La <> [] -> blen f > 0).
  { intro NL. apply blen_pos. intro E. apply NL, C, E. }
  rewrite locate_found.
  2:{ rewrite !blen_app. lia. }
  2:{ intro NL. specialize (P NL). rewrite !blen_app. lia. }
  pose proof (locate_found (blen (concat La ++ f ++ m)) [] (f ++ m ++ g) Lz (0 + length La) (0 + blen (concat La))) as L2.
  cbn [app] in L2. rewrite L2; clear L2.
  2:{ cbn [concat blen]. rewrite !blen_app. lia. }
  2:{ congruence. }
  cbn [or_panic obind concat blen length].
  rewrite !blen_app.
  replace (0 + length La + 0 - (0 + length La) + 1) with 1 by lia.
  replace (0 + length La =? 0 + length La + 0) with true by lia.
  replace (blen (concat La) + blen f - (0 + blen (concat La))) with (blen f) by lia.
  replace (blen (concat La) + (blen f + blen m) - (0 + blen (concat La) + 0)) with (blen (f ++ m)) by (rewrite blen_app; lia).
  cbn [Nat.add].
  rewrite skipn_app, skipn_all, Nat.sub_diag. cbn [skipn app firstn hd_error or_panic obind].
  unfold partition2_new. rewrite app_assoc, split_at_app. cbn [obind]. rewrite split_at_app. cbn [obind].
  rewrite Nat.add_0_r, single_line_spec. reflexivity.
Qed.

Lemma inner_eq : forall (n : nat) (ms : list text) w,
  (match (if 3 <=? length ms + 2 then nth_error ms 0 else None) with
   | Some line => display_full_covered_snippet covered number w (n + 2) (visualize line)
   | None => []
   end ++
   match (if 6 <=? length ms + 2 then None else if length ms + 2 =? 5 then nth_error ms 1 else None) with
   | Some line => display_full_covered_snippet covered number w (n + 3) (visualize line)
   | None => if 6 <=? length ms + 2 then spaces w ++ lit " " ++ number (lit "|") ++ lit " ..." ++ newline else []
   end ++
   match (if 4 <=? length ms + 2 then nth_error ms (length ms - 1) else None) with
   | Some line => display_full_covered_snippet covered number w (n + length ms + 1) (visualize line)
   | None => []
   end) =
  flat_map (entry_row covered number num w) (inner_entries (n + 1 + 1) (map visualize ms)).
Proof.
  intros n ms w. unfold inner_entries. rewrite map_length.
  assert (X : forall k l, display_full_covered_snippet covered number w k l = line_row number num w k (covered l)).
  { intros. unfold display_full_covered_snippet, line_row, newline. rewrite padded_spec. reflexivity. }
  destruct ms as [|a [|b [|c [|d ms]]]].
  - reflexivity.
  - replace (n + 1 + 1) with (n + 2) by lia. generalize (n + 2) (n + 3) (n + length [a] + 1). intros n2 n3 n4.
    cbn -[display_full_covered_snippet line_row plain_row]. rewrite !X, ?app_nil_r. reflexivity.
  - replace (n + 1 + 1) with (n + 2) by lia.
    replace (n + length [a; b] + 1) with (S (n + 2)) by (cbn [length]; lia). generalize (n + 2) (n + 3). intros n2 n3.
    cbn -[display_full_covered_snippet line_row plain_row]. rewrite !X, ?app_nil_r. reflexivity.
  - replace (n + 1 + 1) with (n + 2) by lia.
    replace (n + length [a; b; c] + 1) with (S (S (n + 2))) by (cbn [length]; lia).
    replace (n + 3) with (S (n + 2)) by lia. generalize (n + 2). intros n2.
    cbn -[display_full_covered_snippet line_row plain_row]. rewrite !X, ?app_nil_r. reflexivity.
  - set (L := d :: ms). assert (EL : length (a :: b :: c :: L) = S (S (S (S (length ms))))) by reflexivity.
    rewrite EL. replace (S (S (S (S (length ms)))) <=? 3) with false by lia.
    replace (3 <=? S (S (S (S (length ms)))) + 2) with true by lia.
    replace (6 <=? S (S (S (S (length ms)))) + 2) with true by lia.
    replace (4 <=? S (S (S (S (length ms)))) + 2) with true by lia.
    cbn [nth_error]. rewrite X.
    rewrite <- EL, (nth_error_last _ []) by discriminate. rewrite X.
    cbn [flat_map entry_row hd map]. rewrite app_nil_r.
    change (visualize a :: visualize b :: visualize c :: map visualize L) with (map visualize (a :: b :: c :: L)).
    rewrite (last_map visualize (a :: b :: c :: L) []) by discriminate.
    unfold plain_row, newline. replace (n + 1 + 1) with (n + 2) by lia.
    replace (n + 2 + length (a :: b :: c :: L) - 1) with (n + length (a :: b :: c :: L) + 1) by lia. reflexivity.
Qed.

Lemma multi_line_spec : forall n f1 g1 ms f2 g2,
  display_snippet_multi_line covered marker number width (ceil_log10 (n + length ms + 1 + 1))
    (mkPartition n f1 g1) (mkPartition (n + length ms + 1) f2 g2)
    (option_map visualize (if 3 <=? length ms + 2 then nth_error ms 0 else None),
     option_map visualize (if 6 <=? length ms + 2 then None else if length ms + 2 =? 5 then nth_error ms 1 else None),
     6 <=? length ms + 2,
     option_map visualize (if 4 <=? length ms + 2 then nth_error ms (length ms - 1) else None)) =
  many_lines covered marker number width num (n + 1) f1 g1 (map visualize ms) f2 g2.
Proof.
  intros. unfold display_snippet_multi_line, many_lines. cbn [p_line p_former p_latter]. rewrite map_length.
  replace (n + 1 + length ms + 1) with (n + length ms + 1 + 1) by lia.
  rewrite (ceil_log10_spec _ _ (NUM (n + length ms + 1 + 1))).
  rewrite <- inner_eq. rewrite !padded_spec.
  unfold plain_row, line_row, newline, spaces, blanks, option_map. rewrite <- !app_assoc.
  destruct (if 3 <=? length ms + 2 then nth_error ms 0 else None) as [?|];
  destruct (if 6 <=? length ms + 2 then None else if length ms + 2 =? 5 then nth_error ms 1 else None) as [?|];
  destruct (if 4 <=? length ms + 2 then nth_error ms (length ms - 1) else None) as [?|];
  rewrite <- ?app_assoc; reflexivity.
Qed.

Lemma display_span_many_lines : forall addr La f1 g1 ms f2 g2 Lz vf1 vg1 vms vf2 vg2,
  let s := concat La ++ (f1 ++ g1) ++ concat ms ++ (f2 ++ g2) ++ concat Lz in
  split_lines s = La ++ (f1 ++ g1) :: ms ++ (f2 ++ g2) :: Lz -> (f1 = [] -> La = []) -> f2 <> [] ->
  visible f1 vf1 -> visible g1 vg1 -> Forall2 visible ms vms -> visible f2 vf2 -> visible g2 vg2 ->
  display_span covered marker number width
    (mkSpan addr s (blen (concat La ++ f1)) (blen (concat La ++ (f1 ++ g1) ++ concat ms ++ f2))) =
  Ret (many_lines covered marker number width num (length La + 1) vf1 vg1 vms vf2 vg2).
Proof.
  intros addr La f1 g1 ms f2 g2 Lz vf1 vg1 vms vf2 vg2 s SL C N2 Vf1 Vg1 Vms Vf2 Vg2.
  apply visible_unique in Vf1, Vg1, Vf2, Vg2. subst vf1 vg1 vf2 vg2.
  assert (Ems : vms = map visualize ms).
  { clear -Vms. induction Vms as [|x y l l' V _ IH]; [reflexivity|]. cbn [map]. rewrite IH. f_equal. apply visible_unique, V. }
  subst vms.
  unfold display_span. cbn [sp_addr sp_input sp_start sp_end].
  rewrite span_new_whole. cbn [or_panic obind]. rewrite lines_whole by lia. cbn [obind]. rewrite SL.
  assert (P : La <> [] -> blen f1 > 0).
  { intro NL. apply blen_pos. intro E. apply NL, C, E. }
  assert (P2 := blen_pos f2 N2).
  rewrite locate_found.
  2:{ rewrite !blen_app. lia. }
  2:{ intro NL. specialize (P NL). rewrite !blen_app. lia. }
  pose proof (locate_found (blen (concat La ++ (f1 ++ g1) ++ concat ms ++ f2)) ((f1 ++ g1) :: ms) (f2 ++ g2) Lz
                (0 + length La) (0 + blen (concat La))) as L2.
  cbn [app] in L2.
  match goal with |- context [locate ?t ?l ?i ?p] =>
    erewrite (L2 : _ -> _ -> locate t l i p = _); clear L2 end.
  2:{ cbn [concat]. rewrite !blen_app. lia. }
  2:{ intros _. cbn [concat]. rewrite !blen_app. lia. }
  cbn [or_panic obind length Nat.add concat].
  replace (length La =? length La + S (length ms)) with false by lia.
  replace (length La + S (length ms) - length La + 1) with (length ms + 2) by lia.
  match type of SL with _ = ?l => set (all := l) end.
  assert (EL : firstn (length ms + 2) (skipn (length La) all) = (f1 ++ g1) :: ms ++ [f2 ++ g2]).
  { unfold all. rewrite skipn_app, skipn_all, Nat.sub_diag. cbn [skipn app].
    replace ((f1 ++ g1) :: ms ++ (f2 ++ g2) :: Lz) with (((f1 ++ g1) :: ms ++ [f2 ++ g2]) ++ Lz)
      by (cbn [app]; rewrite <- app_assoc; reflexivity).
    rewrite firstn_app.
    replace (length ms + 2 - length ((f1 ++ g1) :: ms ++ [f2 ++ g2])) with 0
      by (cbn [length]; rewrite app_length; cbn [length]; lia).
    cbn [firstn]. rewrite app_nil_r. apply firstn_all2. cbn [length]. rewrite app_length. cbn [length]. lia. }
  match goal with |- context [firstn ?n ?l] => rewrite (EL : firstn n l = _) end. clear EL. unfold text in *. cbn [hd_error or_panic obind].
  replace (rev ((f1 ++ g1) :: ms ++ [f2 ++ g2])) with ((f2 ++ g2) :: rev ms ++ [f1 ++ g1])
    by (cbn [rev]; rewrite rev_app_distr; reflexivity).
  cbn [hd_error or_panic obind].
  rewrite !blen_app.
  replace (blen (concat La) + blen f1 - blen (concat La)) with (blen f1) by lia.
  replace (blen (concat La) + (blen f1 + blen g1 + (blen (concat ms) + blen f2)) -
           (blen (concat La) + (blen f1 + blen g1 + blen (concat ms)))) with (blen f2) by lia.
  unfold partition_new. rewrite !split_at_app. cbn [obind].
  unfold text in *.
  replace (length ((f1 ++ g1) :: ms ++ [f2 ++ g2])) with (length ms + 2)
    by (cbn [length]; rewrite app_length; cbn [length]; lia).
  rewrite <- multi_line_spec.
  unfold text in *.
  replace (length La + length ms + 1) with (length La + S (length ms)) by lia.
  assert (A1 : 3 <=? length ms + 2 = true -> exists l, nth_error ms 0 = Some l /\ nth_error ((f1 ++ g1) :: ms ++ [f2 ++ g2]) 1 = Some l).
  { intro G. destruct ms as [|x ms]; [discriminate|]. exists x. split; reflexivity. }
  assert (A2 : length ms + 2 =? 5 = true -> exists l, nth_error ms 1 = Some l /\ nth_error ((f1 ++ g1) :: ms ++ [f2 ++ g2]) 2 = Some l).
  { intro G. destruct ms as [|x [|y ms]]; [discriminate|discriminate|]. exists y. split; reflexivity. }
  assert (A3 : 4 <=? length ms + 2 = true -> exists l, nth_error ms (length ms - 1) = Some l /\ nth_error ((f1 ++ g1) :: ms ++ [f2 ++ g2]) (length ms + 2 - 2) = Some l).
  { intro G. destruct (exists_last (l := ms)) as (x & y & ->); [intros ->; discriminate|].
    exists y. rewrite app_length. cbn [length].
    replace (length x + 1 + 2 - 2) with (S (length x)) by lia. replace (length x + 1 - 1) with (length x) by lia.
    cbn [nth_error]. rewrite <- app_assoc. rewrite !nth_error_app2 by lia. rewrite Nat.sub_diag. split; reflexivity. }
  destruct (3 <=? length ms + 2); [destruct (A1 eq_refl) as (l1 & -> & ->)|]; cbn [or_panic obind];
  (destruct (6 <=? length ms + 2); [|destruct (length ms + 2 =? 5); [destruct (A2 eq_refl) as (l2 & -> & ->)|]]); cbn [or_panic obind];
  (destruct (4 <=? length ms + 2); [destruct (A3 eq_refl) as (l3 & -> & ->)|]); cbn [or_panic obind fst snd option_map];
  reflexivity.
Qed.

Lemma position_loop_found : forall La f g Lz idx pos, g <> [] ->
  display_position_loop marker number width (pos + blen (concat La ++ f)) (La ++ (f ++ g) :: Lz) idx pos =
  Ret (point marker number width num (idx + length La + 1) (visualize f) (visualize g)).
Proof.
  intros La f g Lz idx pos N. assert (P := blen_pos g N). revert idx pos.
  induction La as [|x La IH]; intros idx pos; cbn [app concat display_position_loop length].
  - rewrite blen_app. destruct (Nat.ltb_spec (pos + blen f) (pos + (blen f + blen g))); [|lia].
    replace (pos + blen f - pos) with (blen f) by lia. unfold partition_new. rewrite split_at_app. cbn [obind].
    rewrite single_pos_spec, Nat.add_0_r. reflexivity.
  - rewrite <- app_assoc, blen_app. destruct (Nat.ltb_spec (pos + (blen x + blen (concat La ++ f))) (pos + blen x)); [lia|].
    rewrite Nat.add_assoc, IH. do 2 f_equal. lia.
Qed.
Lemma display_position_point : forall addr La f g Lz vf vg,
  let s := concat La ++ (f ++ g) ++ concat Lz in
  split_lines s = La ++ (f ++ g) :: Lz -> g <> [] -> visible f vf -> visible g vg ->
  display_position marker number width (mkPosition addr s (blen (concat La ++ f))) =
  Ret (point marker number width num (length La + 1) vf vg).
Proof.
  intros addr La f g Lz vf vg s SL N Vf Vg. apply visible_unique in Vf, Vg. subst vf vg.
  unfold display_position. cbn [p_addr p_input p_pos]. rewrite span_new_whole. cbn [or_panic obind].
  rewrite lines_whole by lia. cbn [obind]. rewrite SL.
  apply (position_loop_found La f g Lz 0 0 N).
Qed.
Lemma display_span_empty : forall addr, display_span covered marker number width (mkSpan addr [] 0 0) = Panic.
Proof. reflexivity. Qed.
End Format.

Lemma position_loop_none : forall marker number width ls p idx pos, pos + blen (concat ls) <= p ->
  display_position_loop marker number width p ls idx pos = Ret [].
Proof.
  intros marker number width. induction ls as [|l ls IH]; intros p idx pos L; cbn [display_position_loop]; [reflexivity|].
  cbn [concat] in L. rewrite blen_app in L. destruct (Nat.ltb_spec p (pos + blen l)); [lia|]. apply IH. lia.
Qed.

Lemma display_position_end : forall marker number width addr s,
  display_position marker number width (mkPosition addr s (blen s)) = Ret [].
Proof.
  intros marker number width addr s. unfold display_position. cbn [p_addr p_input p_pos]. rewrite span_new_whole. cbn [or_panic obind].
  rewrite lines_whole by lia. cbn [obind]. apply position_loop_none. rewrite concat_split_lines. reflexivity.
Qed.


(** Every valid position but the end of the input lies before a character of a line. *)
Lemma position_cases : forall a b, b <> [] ->
  exists La f g Lz, split_lines (a ++ b) = La ++ (f ++ g) :: Lz /\ a = concat La ++ f /\ g <> [].
Proof.
  intros a b N. destruct b as [|c b]; [congruence|].
  destruct (concat_position (split_lines (a ++ c :: b)) (a ++ [c]) b) as (La & f & g & Lz & E & A & Nf).
  - rewrite concat_split_lines, <- app_assoc. reflexivity.
  - destruct a; discriminate.
  - destruct (exists_last Nf) as (f' & d & ->). rewrite app_assoc in A. apply app_inj_tail in A. destruct A as (-> & ->).
    exists La, f', (d :: g), Lz. rewrite E, <- app_assoc. split; [reflexivity|]. split; [reflexivity|discriminate].
Qed.

(** Every valid span of a non-empty input lies within one line or reaches from one to another. *)
Lemma span_cases : forall a m r, a ++ m ++ r <> [] ->
  (exists La f g Lz, split_lines (a ++ m ++ r) = La ++ (f ++ m ++ g) :: Lz /\ a = concat La ++ f /\
     (f = [] -> La = [])) \/
  (exists La f1 g1 ms f2 g2 Lz, split_lines (a ++ m ++ r) = La ++ (f1 ++ g1) :: ms ++ (f2 ++ g2)  :: Lz /\
     a = concat La ++ f1 /\ a ++ m = concat La ++ (f1 ++ g1) ++ concat ms ++ f2 /\
     (f1 = [] -> La = []) /\ f2 <> []).
Proof.
  intros a m r N.
  assert (A : exists La f g Lz, split_lines (a ++ m ++ r) = La ++ (f ++ g) :: Lz /\ a = concat La ++ f /\ (f = [] -> La = [])).
  { destruct a as [|c a].
    - cbn [app] in *. destruct (split_lines (m ++ r)) as [|l ls] eqn:E; [|exists [], [], l, ls; repeat split].
      exfalso. apply N. rewrite <- (concat_split_lines (m ++ r)), E. reflexivity.
    - destruct (concat_position (split_lines ((c :: a) ++ m ++ r)) (c :: a) (m ++ r)) as (La & f & g & Lz & E & A & Nf);
        [apply concat_split_lines|discriminate|].
      exists La, f, g, Lz. split; [exact E|]. split; [exact A|]. intro; contradiction. }
  destruct A as (La & f & g & Lz & E & A & C).
  assert (E2 : m ++ r = g ++ concat Lz).
  { apply (f_equal (@concat _)) in E. rewrite concat_split_lines, concat_app in E. cbn [concat] in E.
    rewrite A in E. rewrite <- !app_assoc in E. apply app_inv_head in E. apply app_inv_head in E. exact E. }
  apply app_eq_app in E2. destruct E2 as (k & [(-> & E2)|(-> & E2)]).
  - destruct k as [|c k].
    + rewrite app_nil_r in *. left. exists La, f, [], Lz. rewrite app_nil_r. auto.
    + right. destruct (concat_position Lz (c :: k) r E2) as (ms & f2 & g2 & Lz' & -> & K & N2); [discriminate|].
      exists La, f, g, ms, f2, g2, Lz'. split; [exact E|]. split; [exact A|]. split.
      * rewrite A, K, <- !app_assoc. reflexivity.
      * auto.
  - left. exists La, f, k, Lz. auto.
Qed.

(** * At most seven rows *)
Lemma lf_count_no : forall t, Forall (fun c => ~ is_control c) t -> lf_count t = 0.
Proof.
  intros t H. induction H as [|c t N _ IH]; [reflexivity|]. cbn [lf_count].
  destruct (N.eq_dec c LF) as [->|_]; [|exact IH]. exfalso. apply N. unfold is_control, LF. lia.
Qed.
Lemma lf_count_repeat : forall c n, c <> LF -> lf_count (repeat c n) = 0.
Proof.
  intros c n N. induction n as [|n IH]; [reflexivity|]. cbn [repeat lf_count].
  destruct (N.eq_dec c LF); [contradiction|exact IH].
Qed.
Lemma lf_count_notation : forall t n, notation t n -> lf_count t = 0.
Proof.
  intros t n (F & _). induction F as [|c t C _ IH]; [reflexivity|]. cbn [lf_count].
  destruct (N.eq_dec c LF) as [->|_]; [unfold LF in C; lia|exact IH].
Qed.

Section Rows.
Variable width : text -> nat.
Variable num : nat -> text.
Hypothesis NUM : numbering num.
Let i (t : text) : text := t.

Lemma plain_row_lf : forall w t, lf_count t = 0 -> lf_count (plain_row i w t) = 1.
Proof.
  intros w t H. unfold plain_row, i, blanks. rewrite !lf_count_app, lf_count_repeat by discriminate.
  rewrite H. reflexivity.
Qed.
Lemma line_row_lf : forall w n t, lf_count t = 0 -> lf_count (line_row i num w n t) = 1.
Proof.
  intros w n t H. unfold line_row, i, blanks. rewrite !lf_count_app, lf_count_repeat by discriminate.
  rewrite (lf_count_notation _ _ (NUM n)), H. reflexivity.
Qed.
Lemma numbered_lf : forall w ms n, Forall (fun t => lf_count t = 0) ms ->
  lf_count (flat_map (entry_row i i num w) (numbered n ms)) = length ms.
Proof.
  intros w ms. induction ms as [|m ms IH]; intros n F; [reflexivity|]. inversion F; subst.
  cbn [numbered flat_map entry_row length]. rewrite lf_count_app, line_row_lf, IH by assumption. reflexivity.
Qed.
Lemma inner_lf : forall w ms n, Forall (fun t => lf_count t = 0) ms ->
  lf_count (flat_map (entry_row i i num w) (inner_entries n ms)) = Nat.min 3 (length ms).
Proof.
  intros w ms n F. unfold inner_entries. destruct (Nat.leb_spec (length ms) 3).
  - rewrite numbered_lf by exact F. lia.
  - assert (N : ms <> []) by (intros ->; cbn in *; lia).
    assert (A : lf_count (hd [] ms) = 0) by (destruct F; [reflexivity|assumption]).
    assert (B : lf_count (last ms []) = 0).
    { destruct (exists_last N) as (x & y & ->). rewrite last_last. apply Forall_app in F. destruct F as (_ & F).
      inversion F; assumption. }
    cbn [flat_map entry_row]. rewrite !lf_count_app, (line_row_lf _ _ _ A), (line_row_lf _ _ _ B), plain_row_lf by reflexivity.
    cbn [lf_count]. lia.
Qed.
Lemma marks_lf : forall n t, lf_count t = 0 -> lf_count (lit " " ++ blanks n ++ i t) = 0.
Proof. intros n t H. rewrite !lf_count_app. unfold blanks. rewrite lf_count_repeat by discriminate. cbn. exact H. Qed.

Lemma one_line_lf : forall n f m g, lf_count f = 0 -> lf_count m = 0 -> lf_count g = 0 ->
  lf_count (one_line i i i width num n f m g) = 3.
Proof.
  intros n f m g F M G. unfold one_line. rewrite !lf_count_app, !plain_row_lf, line_row_lf.
  - reflexivity.
  - unfold i. rewrite !lf_count_app. lia.
  - apply marks_lf. apply lf_count_repeat. discriminate.
  - reflexivity.
Qed.
Lemma many_lines_lf : forall n f1 g1 ms f2 g2, lf_count f1 = 0 -> lf_count g1 = 0 ->
  Forall (fun t => lf_count t = 0) ms -> lf_count f2 = 0 -> lf_count g2 = 0 ->
  lf_count (many_lines i i i width num n f1 g1 ms f2 g2) = 4 + Nat.min 3 (length ms).
Proof.
  intros n f1 g1 ms f2 g2 F1 G1 M F2 G2. unfold many_lines.
  rewrite !lf_count_app, !plain_row_lf, !line_row_lf, inner_lf.
  - lia.
  - exact M.
  - unfold i. rewrite !lf_count_app. lia.
  - unfold i. rewrite !lf_count_app. lia.
  - apply marks_lf. reflexivity.
  - apply marks_lf. reflexivity.
Qed.
End Rows.

Lemma visualize_lf : forall t, lf_count (visualize t) = 0.
Proof. intro t. apply lf_count_no. eapply visible_no_control, visualize_spec. Qed.

Lemma span_display_rows : forall width addr a m r, a ++ m ++ r <> [] ->
  exists t, span_display width (mkSpan addr (a ++ m ++ r) (blen a) (blen (a ++ m))) = Ret t /\
    3 <= lf_count t <= 7.
Proof.
  intros width addr a m r N. assert (NUM : numbering decimal) by (intro; apply decimal_spec).
  assert (V : forall t, visible t (visualize t)) by apply visualize_spec.
  destruct (span_cases a m r N) as [(La & f & g & Lz & E & A & C)|(La & f1 & g1 & ms & f2 & g2 & Lz & E & A & B & C & N2)].
  - assert (S : a ++ m ++ r = concat La ++ (f ++ m ++ g) ++ concat Lz).
    { rewrite <- (concat_split_lines (a ++ m ++ r)), E, concat_app. reflexivity. }
    rewrite S in E |- *. subst a. replace ((concat La ++ f) ++ m) with (concat La ++ f ++ m) by apply app_assoc. unfold span_display.
    eexists. split; [apply (display_span_one_line _ _ _ _ _ NUM); [exact E|exact C|apply V|apply V|apply V]|].
    rewrite one_line_lf by (auto using visualize_lf). lia.
  - assert (S : a ++ m ++ r = concat La ++ (f1 ++ g1) ++ concat ms ++ (f2 ++ g2) ++ concat Lz).
    { rewrite <- (concat_split_lines (a ++ m ++ r)), E, concat_app. cbn [concat]. rewrite concat_app. reflexivity. }
    rewrite B. rewrite S in E |- *. subst a. unfold span_display.
    eexists. split; [apply (display_span_many_lines _ _ _ _ _ NUM); [exact E|exact C|exact N2|apply V|apply V| |apply V|apply V]|].
    + instantiate (1 := map visualize ms). clear. induction ms; constructor; [apply visualize_spec|assumption].
    + rewrite many_lines_lf by (auto using visualize_lf; apply Forall_forall; intros x I;
        apply in_map_iff in I; destruct I as (y & <- & _); apply visualize_lf). lia.
Qed.
